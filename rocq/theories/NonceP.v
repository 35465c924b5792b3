(** Steps leading from the JubJub generator to the multiple by 5434290453746709621674353600312312, the nonce of the repository's test
    (signature.rs 84).  A list of hints: nothing is taken on trust, every step is checked (see ProjP.v). *)
From Coq Require Import ZArith List.
From Verif Require Import ProjP.
Import ListNotations.
Open Scope Z_scope.

Definition nonce_steps : list step := [
  Dbl 0 0x35d84b4bbb504c30df6005260b550f1b00db242e7c2dee016712bd2b0f13281b 0x412ef797a253102e1bd0d6a40e717a0abfa0b7c56d0ef92a81cb8292fdc6f6d5 (0x4dfe600d025b4d0fe76b6c794c061305568b443a15b021e65f32a56ffcc26700) (-0x1f6da998733797562c46598a19ff577e8155095417bb2af888f5b49c1cafbca5) (-0x64833e3d71434d3cce07e307aff63cb690f5c803c75e6986a00f1df5f07416ec);
  Add 1 0 0x609bdb2e9d71aebeeb41b6181a44584906ccd72f7b7e7524c906ff1ebc2fedab 0x24c8bf4eae482efa6cb0d128f74c4ac66666acf58198463df9dd1f40a71b3aa 0xb5fd03f54ccc3bc932174e737aea24770b0b26951ff2e1c35c61f66368b1ec0 0x3735bfd652ab393a635fa6267bf233970e2cd7ebaf9b80e1a70673ad1da064b2 0x1ad094f9b8ca48299e560413ab68a57dcd55dce855c6cfd0afba9b076b32045d 0x13b018e994e47745046cdc60022fedf9f9c5ac1ce5af698c6ec6ed76b9727119 (0x12aa3ca43a8faa4877b9fbba103ad708ad88059705cf53d74179cf9d185926c0) (-0x4470fdd21714af895940c1929ab401b05511dfcff6d7144a538982b6e72fd44b);
  Add 0 1 0x727edb8ccc9fcf488fc041db1c02a1f099001f31cf25dc12ab4a40ce87e4778f 0x579e2cd6b0df568384e169ab4f3e00ab0f06a9e91b6e9c9691c76ec61e7b133f 0x2cdf2244ed7ceeaed0705ce3a2c67c46c10caf05b6b7db3c6fff3e4f4e31d044 0x14aeca51e2cc138f2d01e4203ae12f41d2cbd7e71c198bc5ab82b9d7194ee2e 0x6d5c0b3c887f995fc4171dd3d049810298492d6112018fa5f86d5332c26c2dc 0x259b861003e0b68f183b3dea79acc0837424d3f63a44206dba5a17568709da1b (0x25b749657a1465bf7cf5a86e8b6035cd756a84c533aa77bfb9ea3c001fab4ecd) (-0x75699ced3279a794bb9856030a5267989cb78651464f8b213630a9212aa6f09f);
  Add 0 2 0x1be1a0601afac06ce8e1aefcf76b69893536e13cbe4dc4cb0e2fb2867ed0ee51 0x29050b73993f43ccf4e9b9e66c278bcc8ffcab2ad4af55453bf709887bce9874 0x352dedf03a7c3fd75086455a310e2676b7a27423a737c37e8f5fb672f381caf0 0x3143e65ea1d1acb28b3461dd8f034d04526996492ff0a09d44d218343e236b70 0x15a22410e88ddb6dad912274c697aa001b39da1eedbbc84c4aa40e0d0b4c8da3 0x1307e83772b85d0a39ffc2f794d6f7ebad7677c140bf58f593eba927316da652 (-0x5e7c8220b25f39dbc6ae8099ddade4b964661acd589da0bbd0b7b8961e7c129d) (-0x760548922d59595aaeb7d198e44d4d9463a5f16a15747d6e5d189b92441fd534);
  Add 0 3 0x2f8709560fcb1bb166c83f1bf099602b36abd61befb783d9a75f2339a2d6c567 0x701f36e8856cb1ab3763ad2eb4d6228524a6cb1709a7ed6e14366519441eaeee 0xcf3315919aa774de5054b75e3cb4bb6699e94704d5f0a424855cc5f263c866e 0x1710765cf7dec33730ab216fa1f231d2535e192f82e8e44a9a71503dfe4e0ffd 0x2b8a90240741465310ad5bc907a98a30f1281373a0ee7e5f71cc095babc3365c 0x27b16ccf3102aa26817596bd5ef3a682a00005d928bc426b7ab6f5d0d9cae01c (-0x1bc942c127aa013ec289775be83a99da28474efa202a8ea165b12a2c1d0bf425) (-0x3464c87d9c419667a9f121a196e6bc0cf35b913e2a1690cd36b0856e03dcf0ab);
  Add 0 4 0x3ec42c5c552cdbe64d517e59e355624f3cfbe8831a170c82212e8501c85a00de 0x5e394d222badbe5379ca461a6c40fe263fea24aa8ae37a4825cb753ad8b68491 0x161330356b64e0f1b4691f7157dbce8a635afe140bebbae492bd9565aa2e501a 0x3f0b10c8c9666a8952ef22a61e64ab66f7b134ea1d38bfbf8532b2bab4004f2f 0x121fe057aba7da10520409194186494676211b85dbdc6c59b1bce0328684f454 0xd7547bc6f4d9ecd2329a0f7cd87ad90ceb374637e550f19b27b4f9e70c3eae7 (-0x3e325ecfe7a87af89070e8c481736ffdd622f21a1bd8ba1f280b458a9d9246a3) (-0x6e0b17cce34856150bf8bf372cc20b5aca74b0b7ec7b11e9f4db9f935c5a7d2c);
  Add 0 5 0x1d4787bb269a57978254687646f493d1f873b0200f1e586c000cf94c9d0b477f 0x4b5e196eec13c5d057a6ee29c0abfc9fe5205b8e92bf19c6288bc75c1081770a 0x1d272358bba8f9cd71e8222f75fd23362072bc9a87fd32ea5fb8edff18f486cd 0x34fac69bbe66f1dc79d58e0ac0ea69402917bf44b370c7c0a60c07d688166dca 0x306558f3994cb617d5b867f42941ba54352ff79c305d8601d3ed3f384ca89865 0x20fc243f78d37d6b286dcc562ed4905b7a48fa9b9e8c835ebcb6faa7ef6f3e4 (-0x3cc9385489c850bd3c9d2c23ba47b48c5fb34304d5600df605de25acc174c668) (-0x812900a80b79c0dea9d3aee1ef569128a961f5b94073a4d7b2e7cdad04e1ea01);
  Add 0 6 0x3b19443e19c75d8bf0239997ab4176f40b74c12ed107b9b189490e67e3641ca0 0x1cc0ce0d9a164ba9b12d374a657636fda09c6bb85bfdf3db2ab471b96c92957a 0xd996d62350475bd68b0a949671c75be539d9380241b3af3b2294bd6318d1734 0x2a60910d9ea978fa460a97a3eeaf9bcce9095b5602c48b48252b3fa6e8d596ce 0x4606841aa44392f42730eaeece995ac76c55683d7fa6f9da5b851a324f5b93e4 0x116d24d97c10703573f6643819d5fbdfe327a59fd8ec668089d13c3853eb1dbb (-0x1fdc9cd336a415ecd89a2c1ad29c70100f2d99de5deefcc6aded01a67f83f4f9) (-0x4184124549da58e19951406d0120ddfd7b2645ff28e5feb3a775fa84a8404ddf);
  Dbl 8 0x35d84b4bbb504c30df6005260b550f1b00db242e7c2dee016712bd2b0f13281b 0x412ef797a253102e1bd0d6a40e717a0abfa0b7c56d0ef92a81cb8292fdc6f6d5 (0x4dfe600d025b4d0fe76b6c794c061305568b443a15b021e65f32a56ffcc26700) (-0x1f6da998733797562c46598a19ff577e8155095417bb2af888f5b49c1cafbca5) (-0x64833e3d71434d3cce07e307aff63cb690f5c803c75e6986a00f1df5f07416ec);
  Dbl 0 0x418795c06a5304b331a056abd827c71978eff27afa09c8215ee6ea58e16d529e 0x26668692b8b72e17d0ae9d9d1048e1b35a8481ac15adb193dc7e125dce4aae1b (0xba44b0d4a7af8a4d3e82ed4f3e0b2019779bb4119bf51c4535f4a2334f36c51) (-0x2d9954705d1f612ffc1b0ce0e833ca98a830c606553c5d567ff16f5ae77065ac) (-0x466c12dafe8e386dc84ed8742f7913f79161db3002b2bd2b82b27218912c3171);
  Dbl 0 0x11dafe5d23e1218086a365b99fbf3d3be72f6afd7d1f72623e6b071492d1122b 0x1d523cf1ddab1a1793132e78c866c0c33e26ba5cc220fed7cc3f870e59d292aa (-0x1852448797c1c0ad0766ae1173104997d588ae105ce00def0da017aeb3ac748e) (-0x2844583ff01a4b81a783b8e591619108ab9b6407964cd5117fac15ad835fbe33) (-0x36ed35ecdbfb876a2635c41b7c6d3f9b293bf85bd6bfabefbdec033dba0d81c7);
  Dbl 0 0x422aa5019e2b74d23b9f975158ab150bc4cc70d281a909df8a8a9a5debe99dcd 0x10605562d77b78bc4b7ca1ea62681c850b71e55c81be7bdb8c9285cc60c9d31 (0x4aa7d2776b807c1c75ca7d684f2eb069407a6dbd5c378ee29d0c08af5845791) (0x13092e84c41f021cc88191085275eee1a2cd4d570ada43f87884d56180126fb6) (-0xa99b356c0ada6ad494f72615e73425ab46b091c69570eb81257d0526459b6b5);
  Dbl 0 0x4700c53930f4ecfa0d58a6d76f3bf22c7faeb657e16ef540bc6c3368c7e2531f 0x3fb7bf5eb8791a69b20113a1d33668dd4e629381ed8b99011a2e36e866d07c8 (-0x25c17d18dd5d4f1c4b3df20791e079c738d23729394dc73b5ad110b5ffaa6561) (0x18349b1d8bb1969cc220b2589169ee6fd2d7ab306b8f009b51e0bf9365bba10d) (-0x273270f880c6be36d16e9c7dcbb6be2ca02ee97ed0fde3289d84b94f3c12e082);
  Dbl 0 0x73c4cd5b80651a4469bbd50bab74cb2c4756284a06eb7b059a16ca306eda7648 0x1a95e7a9d0b0e85316bee41f6642267bbf09bc00fdaf722f733550a41524ba69 (-0x2b59c3ea3d3d6ba1f2945ad6c58f3a1fbf8123a2d0d2f79f83292de1fca57a68) (0x21dc5bae12c84c9e34427269162a56057d044cc8d539456aa567dc382d7e6888) (-0x3485394b927d9fdc53d41dc7adf92bcea6640aa4b568eb8bb0d09053d94791ee);
  Dbl 0 0x893b41db313df97fd953fb743e8350c54c8d833bde838bc28a84323d0835f07 0x67efd78a2ef6e7ea6b3deabe4689411b9383eaf47abc317152d46820cab0b2a8 (-0x6d8339a43d343d430536e59172dd7979fcddcd49274fac8e0b577720bb0720a4) (-0x30d099dc5d1e97c7c62147f9591740e991a7efb6ac01f37075197b21c0704bdd) (-0xad9bfda7be97a9bf5c624fe4b603230c0caf32a6a979ab70b192fa0ec5dfacc9);
  Dbl 0 0x3cb4e928956c93f76f0e7f9e20b35554946b845a0bc01a19fb86aa0945c00780 0x3b63a443ef5e44b9943f376653ef771a463359c2d8ba934b8cd77293e72c31b (0x5c8d1e1f7be67ecb4bc42be203a19fbc1e1b74e4c49078ce19cf1b1abe5addab) (0x23bba2d44a431a19a764aaf4b5d70dbdc5bd5c217611523e9f9ea7f8534178d0) (-0x60f2118b56522704db71a00cfa0ecd737ac7f97ef774532825f2061f4b77bac7);
  Add 0 10 0x15170febff4d30a1dabc1e6aee426870c1f1340bbc39e39c0d64686d25f2709b 0x5f9320401cac601c900ecbb35e34e9c93ffc783d2aba888df2b1c36ae47847e1 0x20de36156d2c08c172b2cbfc721ca0407bca9002097d27c181660579b24c996c 0x304529e2b50549aa8875ebe3129795eb07e1ac340b3c970b1c6b29c72edef98 0x34ca9dd6781d0ba137f4cde9c38dae59a5d2548fe6c58c7df0ffa9c181fb041d 0x338e26d79d5d08a1bfe363ef415f78c2f8c9cbf191cf2abbe5bc1ee9ee63e32 (-0x212eccbf9d14e5b466289cb52bcb06dd8086f9a990c809eca75a89a51df3bda0) (-0x763779797983ac91c665c8688d35152958ea583aceb0e7ad1ac07e83425ae547);
  Dbl 0 0xfc1ab3c07e768ba8fae1e77f6abce495f5f8f47d23e855742115b0f9b1d3a6b 0x1ffcce847c891ee0490fd09bb46a3dbafca29c83f7b2eb5209f0adc9f9aefd8d (0x4af532c58e747205d3441b64248efd75fd255549446a463efa1414b1a21cdb83) (-0x13f51a938da49e49b4aa9cd4b6b6effb2f440a113e0d7d982d468c28a167203f) (-0x70b63ac6fc96ae734b699c99bcf107d352d13273b8a2c25669f56e1223a01121);
  Dbl 0 0x46fdf41422e66cb050f283baac91243daf958ffc8a150e8459f4a5d3ed11dce5 0x493c6d3999456f0cb358dfe807a72842debb9fe73e0b0aded64b6835a91294f8 (0x6af419a85408036539bbcc3d7bb47e9000396f360304f72ebf600d478646cb5) (0x1e03bef3f802d3f946566b475c7f93b5beffaac00155fe0b29200c893d8d62e9) (-0x32e6b4d60993ff2696622e5fe987766f22ce19e574a7021518c268f3eb0c839a);
  Dbl 0 0x71f5f7acb1bb723fc9e4189d7d88091036ec2d182923461f75609d8238b20718 0x6d98b12deb6d66907b8d5d5e0864aff1b059afbb3ea94220693a3009dbe5c7ca (0x2cab5c950c18d2fadbc8207d70044e0ee955348015fdbff65db32d3a2b0c1ea) (-0x3bd44b1ccc0254db1089743248f15e46b6cfbe1e775b870a883d8e7b7d0f74f8) (-0x7676889c0ed021d5c0f6eeb3254bb1cc85a9b98c5dd80d65f74ad11fc7ea2d27);
  Add 0 16 0xd5f6ad63f22cd0371a4cd2f438ee77308d793c72f8c1c28220f937d9039c5bf 0x4a19c6453ee0a71c79ab02dade6f30e6a9794c00b9b93f3f311a3afb78427d36 0x1b687cc5bef1b3be1598658163a963bda0d8a82fefcb20bd8128748f74f948ef 0x26c77d2d11eb2d6eb927709a98d823f8c3ad65140b7b46df9343611729a2b67e 0xb7cdc2633fecf58cb686ff09f2c66f5cab7298b5c0e08c71e7a986ff9818bff 0x41aaa805c8754ce88898e55346456bcfaf43798f3bc6e2b9b2c822e9e39e98c (-0x3910f6d917e47dcc9c2cd71cf1d12897d6716740e26176a73375563c6b12f26a) (-0x77785706b2276f60e28a2b0d68e58f72d22481d851e5e45615f3590e4d0dad74);
  Dbl 0 0x6004d9f032fb6919f2737d586cdecbd3477d656aec5fbb64a4780e3400214968 0x4a5b603e584f8c92f080a1991a1263a21e7df79377ded050d351f51b91be337a (0x2dd27603c6b2a84e4bab75c8bb8e0d85f0149991c0b5837714c1b956424e2fb4) (0x1663c966da20eeb2cc4c88e897e997b56d685a86a24432496d36964fb4273f84) (-0x4f7c12fbeaace48b6d1af13930bdba3c6ad5711106011c7f4f7076982a486657);
  Dbl 0 0x2157fdaa66560732218d8a54e78c0cfa3ac84c0d96a8568205e63d712db55f9d 0x244c4a097ac525f43f757a05557f18bce210b2a96d576aacc6941941fc43a12b (-0x1fd5fe98591ff60c7da0a740a53850e89dfe973670bee429da7885453962cd62) (-0x76d8a000d0f7c0434d2f18baf6ec78e935208399b52c68778d6aa18dd7591d32) (-0x83eece6f226c72cf44e5b14ef3f560d6e5e477cd867c4536262edeaeebbd02d0);
  Dbl 0 0x53112888c05cb5b2becac32ea03ecca9615af1df36dcf99c1ed8d196639fcc47 0x2446be25b1b1324ea0c18c6230a24637e7bf5b95a37b3aae2db3e32794f27eb8 (0x1c654e954a242772a156ce642629d1a0c0a79e9faedf9e58d2062225f66c770) (0xff23a8ce121354beda7fddc8fae14ef4d18e6a0a1c77ec8be23c68cec8f53c2) (-0x2509c611b085fab9bec6243a73dd3d68f794400afba4edf12950d28650ad2a12);
  Dbl 0 0x3c4673f31b6cd6777f10e0146f80e7e2acf0c3f624b9ca58845ab68ada279ca2 0x65c3ff63b9b1e2e1c7d4bc4c63d492954641d483ef43580051313b7efd95a313 (-0x302b46eaa73eda5beb7d813c7bc2ba09cb55bc7da25815927fb10ce31836ad16) (-0x24598495fedc084eb23aad12517342d9c50b60b144d33941dd82521d0c4c4ba6) (-0x6145e7f08d17537217067edebcba44d3193b425743c8f4b061c48389861b440a);
  Add 0 21 0x5c22aa202e2d2cb9e25cefd3ebd7904f2690df052421f9e5e98217f2d28822db 0x1870669e9c1b129a4ee230e156cf333950231061ab51c704a69add81886ba760 0xe7f1a31b906064da5cc4922108b3a94566fb2919bb5a6ee7d0a342d9fd08eb3 0x24022784c6f352751529b9b35daf36d9a6ddacefb8369d7ff17721ab0822085d 0x23f85a85ebdb20627f8906cf1bf6f1a7a84c09d4aaaa403edb893070a9dede53 0x19ca25ed48f892e1ef68eb8b12778658573879e22c67ba791f34fc8308080400 (0x28049478dfb00e47fcba13284b2bae2925bba56ffac513343c58f556a2a7ed3a) (-0x4944db0d22209cfb84fe616659e6b908f120ffb269a0688397d11d0f0420f1be);
  Dbl 0 0x296a9405f2e313a9e6fa3d4d5f534d590a0fdd959640ec95a083dc12a1248777 0x6cf99d0f429fb61d55da08c1ad1a13595d89d2d785c4d69ad573d041a5cbade0 (-0x4412db1c8156508c5be18b9b9461d17ca7a7587e31225998df153e78508cfdb7) (-0x17c37d16e491a99f89279c104ee5aa548463c51d8b4a46a42952b9bc8dd96a8e) (-0x76105a4931bbe51a15b79d7a3f8bf4e80cdb8258ba48029a053c5db825ac87d9);
  Dbl 0 0x6afd4fedd86aae9794bea0bc979f9371c45ba50377bd9c53fa35be37c65662d8 0x5d2bfb1229f3be7d940f8b06df42d1d6bb4b1955a220aaeb87a6ea0eb5f17bd5 (0x57a47baf293b0ef3aeb48aae79cc098e17eb16110fdd98ed64a25ba664c512f9) (-0x4777a486d84de5f5d8edec4de3788d2fe2a1c5580f07af5da88a2d7c9e8b38b0) (-0x7ace56ba729f72744edc3facaa94d47031e32cdbccfabc32aad94b5cd0ab9215);
  Dbl 0 0x643ea7790bb0f125a8a379a22779cff15fa171a6a82adf823c7523149a88f892 0x6559b58bcbb37b6f86b47a4e7aa0d1526978102c226bb9ce4d5f57175a8dab2c (-0x17db8a15b06efd6e13b6b68558161dd93b49df7e16c48b931a65473f0258a211) (-0x5e6aec991858efdb7e6edaa5412351f325be76c300e1a6caf984742e75084fbc) (-0xfc0909ea2bf93df097e327333b8d20ec9924804feaa44cd2f672911eae7132d9);
  Dbl 0 0x5d8038e703dc87c0c1d92df9106d0476fe511f17f9b04c66ba9f255102dab7a4 0x657d0341b8d6d62a99ee677733fee572d733112bd9cf8a32dc1cf0824b52549d (0x1ec38eae09204f7ac70c74578172e138bec074e2ec1784a81d5fdb2bae1ab77) (-0x5c6973b2beeb2775dfdc8d6aeedf26fe84c8f68236a10d49fa77d9a8a6dff2bc) (-0x1093bd67ca584093349fd95ff3197e660c23be44704c221e3724b1b0ff5abf03b);
  Add 0 28 0x12f8f4bdfe20fac4e71bbe74383e3b882756c04c52c073727256e08760282a35 0x10f5f19d54b6b32ede88b2e1896c5a43399ae95c3c83ff9fe72fb2accad5621 0x4deb3cd0a672ab7d99518e59ee87be6b7a42f40927df9bdf06f55a68e49924d5 0x2033ccb798473fff968a709dcb07d1f77120e406902875ec470ca140aabbb05 0x27a17044f7b697a1027224d1e651b260960d71f69875dc6633f5314e9e3e0613 0x18e41711b23145e7466b12b8ee08962b768ee54ccba176d806b918f30afe23ef (-0x4ab5a065e15fae9f8ad1c191b5f7159b8f1bcabe0a0e5d18a2dba8f6c5a78b65) (-0x50961c7eefbf8d4bad8877520d4fa6c80dd56d9058951fd5845ce2e7e52290e6);
  Dbl 0 0x213c8093bea2b02f18cabc573e0c22ab8e9b11ef276802556e8e899f9c013d15 0x210e4a04423c5b1bca3833aa59bd2b79b32e0f17ded4af9d70335ac91b427174 (-0x31864bb599180126780a12081165c41d79888e66bc12d28d0418a2ae9311b06) (0x1c1bda8d6461094fa99ba1676607b50cd29c46c17d8a324ba743b59d91b12abc) (-0x1f6a77ba002399bb77f05d1e0e5d69478d86cf392355c3bf959d1f1bfddefdaa);
  Dbl 0 0x5343670444a1efe4824d119d6b78cffe1637fb69b0c39b17cafe8c3966bdb1d 0x8760478c792b8162f97a167739344b28c9ae5013654e7ceaf4f98e472f36a49 (-0x1a6d28168f56c48fc3426c6d0ce06024be923ac30021f91c37615b596f5928) (-0x12632e7b2bc8019b8abfd54226184d34a50dc15fbd3cc8bdc3439f21e3655625) (-0x13e0225d6c48610252ab8b83985b36879256906ed45d1e1086b73dce71c4636e);
  Dbl 0 0x4e084dc006f0b2805d9dcd1de35e96afaf0202df82e847d490de5cccc2681b22 0x888eb6acbc002939ff7b4f06250c20892a53f024de7ce1a6ceed80b562f7224 (0x6248ba010d8c2d3e00be0d9e8f2863df92608e72b687fffaa1049a8a51f8ca) (0x67170a1f79b3abc2ca6dbc99248e524bcef1ea7aa16e514237548feec0ec4b2) (-0x1a39104e5c4246f1aa9205275fa21d21cf97c3059c2e64c9d88e73fc340748a);
  Dbl 0 0x35326a4d074dd8397e2945ac7f4204caa0e94580b3d8c5f21effda40267efdda 0x1495c664d608f4bd372780b1ba94559f695968eaeaab33a47dbb60435a1a6e6d (-0x33e560ae58c0ab2a3680f9a2698b23c9dd6f6282f7fdd79b96beea1a0c81447c) (0x1d68f569a296ac4fe2f956fa085a108ee5669d232666b9d75d178d6f4c63ef40) (-0x44fab074a81906de60f70f65e6dccf428e159023ba1350e73028743957435122);
  Dbl 0 0x5d478453f5ee05dae10cf4ebd647114ffba35d3d385b86974ee6b0b3f2f2c50 0x63c4130ced20fee2f71a23391645f730e6f50526a62cb81c14e664d57b610648 (-0x14c172ffc1369bbeab8bbe58a9512c48a76172b0aef80048bb38978dbe7b443f) (-0xf1056d5c0e07d6366a22cd4cb772a149f87785b03921a08147d2014a5828264) (-0x5d93bdaa6d67b4861c6e05865e2638ac2225b5ed8d8537515c6d0fc61e82cc9d);
  Dbl 0 0x55e7fbb63ffb4270d472f6cdfa9da682a1ac0cf5878b15b30ed32efeec5ff78a 0x3b2e0975459c3b25fa1a5b8f88853df44f55b917c15806ebcdd3204382681862 (0x55904a45d3d45f393435e77f8da9e92718a0a466d13c90e603eefca22d00caa0) (0x226a82bed84a674ed48226f5f5d9528b5341c0ee7e7932f846baac42cf64a940) (-0x74c579903ea50203bd1194d7eafb683ff044a98893d37761cd96fa5616fe39bc);
  Dbl 0 0x192c1c733e149068c7a90308caad155f84a5e1a14f6781734b77fdefccf43747 0x578ffadafe04cd732a946c4fb8983ffd614a10a5b42afd56813028c16f5cb1e6 (-0x2172cbe5e94695b9d35004a3ff61985332855a2851555ccd67dab678a7694bba) (-0x43108c67355823a0009c83210d182d840df5ea1822e2b5042477b48bcf7a3d32) (-0xa5ad651f6f1e6933009403abfdd7067acd09f9ba40ca67cdbab18edb973651f8);
  Add 0 31 0x1034145500f8bd4e12e17767dd240af7590dddd3f96633961dd9f6f62f625037 0x640c6cff23c84d9d702dd141f22e077b48d461bb93988bd0f8934a555bd36be5 0x65b8e37ff4a0fb654e800e88a3cdb3e6a318cd9722c7b33b7c7a9ec0e8fe518 0x38ed1fe4518b4da996d36ce2ad25756be8520be5087ef5a3bd254af94147380b 0x1c58e246641257932bb170ff03344659e2d5660c21d4774d779a66452757d27 0x385f5aae59c9e794ac89601535a684891bc5a6b9fae8cfafc51ce5fe8bef75f (-0x23323d15fe7ef55a96c711fcce396562ac26629b66705b6ead26d923523e78ac) (-0x538fa7062a44dde311c044f2d5163e9183996c1475834c1b2bc016ac2d2c1607);
  Dbl 0 0x20b6b903c7dc080a3e8a706fbc671860597b89400839ec1b209e2971b0ee2387 0xd76fd72b94286357df4fe2839843bd665af50712c825fecea147c3730f6a932 (0x541444c9b9187fb8ec53097d611e8ab0b406f2e79aeb9b24c7f771816d66f1d2) (-0xcd43810fea9c089fdd5cb2bdca3a86981af8ea9820a7e0603562d1138fd72ec) (-0x5ed6fb642e7f4aac8b9bfc81e967c78b5aa342dbdd57c1f505d903ab1f322ed2);
  Dbl 0 0x3af180a28f4f9c94384b896e0123621b7c48b748e1c660dc3853d7f966c2f163 0x71712a6afa3a8f6215f0fb0e9586104dbff99c223177bacb11337de66cde9e5e (-0x7aae62cf0bb8b4b46e4ee9b8d16ea71749396896082b10dd36319cd7861ac6f) (0xd020f3c3c81717e8590063f407bcfa8794c9b0fc2f1aaf4ff447446ee1fbf0a) (-0x3274c0e85ab9ae06bf1c834f537651cdcd9a6e366bdda6557efbbdfb9fa98cf5);
  Dbl 0 0x2856df800f5dc9d536583b10dc9ab4445684dc98ad05b26ecdec07f4778b06c7 0x6c764db0e5355071a4f0a40ad144b4453c0ac65ec219defec1fbccd7de61466a (0x510a1f35654039ecf66c8a4fe608629d7a714b89faec3f85792d23cae7655825) (-0x6191a72930e1e62002b332a5aeea045169f6bba05f441f49e83719788b21799a) (-0xbccf5e776bd3d3e7fc5a03e355ce9933d73963b0c250d3517b5b11ea2c203315);
  Add 0 38 0x2103520fa30ba4ffb45eaee7ca545f1ec020d59e82c4defdbedf8b6b5c397545 0x4747af2cfe963b56c2fca886ce32ec3b99eab9da92c6d7ebce2b6b4fd2bc5787 0x9b3aa59c0dfb8a7327546c304aeabfe34662e01b52f210085202c048d22ab4b 0x2660bd21ec612393759373852b9694fa515436e55c8e973e20e9505ef49da3b0 0x1a63ca63c167dc2dbfae4961e9ff360abd8ba481f0876de2963d10dffea5a1b6 0x1397df5abd912f19352ec444362d5348a3a8b95679db0dee927fed981b493cdb (-0x1bf5b48bb4fe735e338d470776ae696c9d0ed12d6bdbe5f7c95edc26513f6286) (-0x4ada1c8d144f27fb081d9fe92afe954ef9bc1a006cfaed6db4bd96002db5aa01);
  Dbl 0 0x42c5f0ae9997c4027a00d7dba895716fba3b67d6e41e3e985cc364083c25cc62 0x3a9f31f0dce1301afb2992b79993b259ec139996868252ad386a0391a5cce517 (0x226d2283cc6909bfa04b5248f06a769244f79479561c9ef8fe9bb04e5da763d6) (0x930efa958fefc088c14259828947a28f4608b17e87b6febb1f5e9884d854d7e) (-0x60f04fb66d14fb87cc3278ee7861b713e566d339d0388a65426496f1c04b7f0a);
  Dbl 0 0x2c55fa758936ffe947f66bd05c12444ceb6d8f395954f35fb8193f2e1305e6d8 0x1698a55ab7d9c85752c2c0407fe8c8348a4adba1ceb3b6b03f77500d033fc437 (-0x8d12624bf7fda6d0ac7b2a92aeba7d14a2fb6beca52afd1c940828d6fafff5f) (-0x412c9b7372071298bab1accffe420de56796777961d84d02f623deed0ea2e67c) (-0x454e1882ee67646649b5211455960ff3b1c03d748091404b41f630824243bedb);
  Dbl 0 0xc30c3048113d0c07020840e6f1f7b163a4853c1fce986379954818494e547b4 0x226eb88855ae6d90ae9c8b87889906ab05ce8c6077a5c67092292e2add242c98 (-0xc8d302073782547ebf0181e24c4baaf803606991e75664f2bd4b2e2fc29504e) (-0x1051277b6c81c5af88aec3c95f73eaee12bcef85701b6725d82623ac80729704) (-0x181718bde5505ef764ae8c123132031b4cdd81033ed1880120fa191d88c5d149);
  Dbl 0 0x73095902b2dc39594b07d4606731a6b6f57f6578cec117de97d5775211d690d3 0x3e656692eae87f88d4804eaec0769cbbab7c793f8e8a6981ea11922d31342eff (0x8f1f18770f406e7833a43cb86a199b90b8325e4871499a3d407da89ec6a7b6b) (0x3c5ea2cf2dfdbf5bf29be7f77d297938d28f69678651d213536074078722db1f) (-0x302e6d7a23abd7509febf07521f34b9e0cc102b00e8386bdb9ee6e28ce05758d);
  Dbl 0 0x23c7a478673f9ae8c3a477b73f2772727fb66d19a7555b39f1b2bb274ee69158 0x15d4fc295748c9cdd834fb637a7649082f0d765cb83451b543aeaef5becf110d (-0x50916fa973e0f37762cda87f301fc6c26d381e0a5cfcaea78e01ac74de03441e) (-0x5af98968da997ba4b8e18384387d74cb8261a9e00f0cd1d46725d8b441db6fca) (-0xa7c8a6113c4c08c0c5c74c25b5f375e756f9e40a61382faddf6eedf496521e8e);
  Add 0 43 0x4f135be6d8d0cf1705ac575ba55fc5afc3a0e76ae4b454e391eb15ea3ef46092 0x6efce2456b155d9f3b9cb7ddf64c40491b88e2fb5417131a6f63a2edd2a6ad4a 0xeab34be90385df3e45e540395b4fc9682d46f85ac1c8406edc9d47a4395e9b1 0x151d79c7589818248becf8c54e412811a3c7fd48262e5beee7e399d99e9f8d89 0x284d6ca8f2b1d09746db97572b4ce3127f909d160ab3f26eb6f4ff7f35090905 0x1abcd3fb2573f419122d43cb6cbfb71a517b5d23074f84e0809c575f37535a9f (-0x7aa586bc21d5d22c5b17d42ca1d1016a40f1e7aa5d7af89c6d8bab4f206adfb) (-0x56287a03c54628ca3d81559b777095218e50b86cb70d054e641bc42079ac62ba);
  Dbl 0 0x644e3c2b9979e0e8d5c51ddfb6ec6f2eed372543a8c36d1f79ad6ef286313f66 0x490fa928e231c79e47adbb04da141faaf85e6286a7ad0dd3b4998d3e4e83b55f (0x3451dc9543dbfd68bd87ad52e46df4f321e804415e20d2dbc824539f1979b9de) (-0x7f14d4a2250d1e0d14cc51852b43ef4281d095d475d1c3ac9a2daa068799081c) (-0xb1eae54e13e25eb59e6c4be5f4a2fb2b89e0669c044c6f8a35b6ab70bcf33868);
  Dbl 0 0x5f87097de420bd62c547ff728886b491906a78493204a323d48d39b0ac21497e 0x187c81d6188faea4b2ad5664fc0669d2ff57d118b69bd674ad97b03fac619497 (-0x28be3b87444de9518aaefc8934d4c11aede1b55641a441d5f9dc71fdf09a9ff4) (-0x76670bf77e955c13059e89377e4c240e8254ee0e30757a4dd1aa406306ec2156) (-0x86e4245cf10114533628487ca8d5dad8ffec147de5172a3c35335682cc65ba3e);
  Dbl 0 0x2c38eecb885bae968e5c08cb6b01dfc3af9c6cf2547408ac48f0c6b32969b917 0x314356f1711903507f20edece62956531f4571debe39302ef742982886624ffe (-0x498b743507d09b4745636b610b34678ae6b024e5655b5fc7fd5cc9c8da0d125e) (-0x4cf97b1b509c69cdf7a2bdad7a59efda025a192c5497d60763f1b1ed0d81707) (-0x7b7bdd1f559f84e87ffb4f13ab7a89e8d10bc93fee227c92a449ae70531b0843);
  Dbl 0 0x4a85a5857663d70cd8fc267b142a57797d124b6d65334ca77ce4a82a827df056 0x5e4cb5d78bb5c3d880a91ccf7dbb1308f1266022e48600f8f2ce912aa5c640db (0x41097e307343ad2dc8e38a8f9a26cf77e0aa28819fee812faf13bbd1076fe5e) (0x2335e2a6fde5fbb951a23066e2a442c0847b965404bfaffa8c4de2d5004ebc6a) (-0x81eabd1235ad258f226963560d73c3e8c151344f6f3cd1a9c024349c054198d6);
  Dbl 0 0xfb1f593967df23ee9e1f5230c7fc09ab64446fc30348bd1e18f46b6d2e3bc05 0x2e00b476acbcc0c33ff3badf9eac94d8dabdce6c58b2077c0b6dbf23fa56ff1f (0x1ccd2220224aae2c920ef8564cb0b5c232ea5bd8ca4f7431648e66b44b9b2291) (-0x6a622e097fc3a50f4b59ab7c49ccf3972b5a3923661c866bd76f42c57ba417b0) (-0xa825a4f158ad69ffc05a1812d7cad7be436d9fdbff358bfec7bdeffcba1f769b);
  Add 0 49 0x497370eb7a98c9ba244ac799e8f5b6ae2df00774629cb3d8e6957de54854d622 0x3e47563d95b1ce480e0e279ccdd110a144f02056529df239206f50f929ea78da 0x66f413a0e50255c1213aad9688e07aef89a36085aa3fe52dcce7e8187f3a090 0x2c7e070371050c23bc99bdabdafe3e6177ec6b252cf6f36802be1fef50abdb09 0x1e840c7bc80ccc4661503c8921b0bd61164389daa7cfe8e5fd38f18650b5ab7d 0x94578bd77129b1a7a6d94c199382c5b436b037ceab1c92894114239042166e1 (0x2370302695f321abe02d902992465c614b6e49051c29bf852d8b455521ddbfbd) (-0x6dd63c21c86d7c4cd26a308f80445e598d2efa5ed64aaecca19ca64d0dde530d);
  Dbl 0 0x3bfdb6b49ded5ddf6d8c42215864950302c9d11c11bc2a5f6eef6bf7d66651a1 0x5b56adf8fc23d9f9e1dd61dc00a34f2a2a181d27a33da274192528d4f4e3ccc4 (-0xd14a0a1f08534e096c8dff88871e3ec59a161839ae671bfb488d09f1f4deb16) (-0x1566088d36095ffea263a2b966e9556542f44132f97aeffd400d5588dbd831f2) (-0xa79210edabc5a0762bd658c0a1a1bef854d7cb91f1191629b3b7b6c8d19e2df8);
  Dbl 0 0x540c736f195339ddb5eeab617c179a53af05be11999157d5eaccdf80d9676560 0x2124b7a6e49212de993b52fedf168db7abdbc74a98c1cab43c54182fa2f621cb (0x28eb91e40bb5d0d876231ffdfc620cd9bf49d33e0abc08234b706355482755ab) (-0x416430afff38825595759fc65fa15be0a6b3cbb40aba33fb130ac271f142f508) (-0x72801e60354f2078a1b078875519692d39db17b9499f077c95cc2dba10864d47);
  Dbl 0 0x2cdf177cc9720d7cf802d54273094c5e775731f287f4111976e2bba7aa00bd8 0x3b7d334e1ff060e928f32ee66400261050c7027643141244608a737f379a54dc (-0x3375cab5777e60eb0c78c510c9fef53f3fde1c1bb595ad26ce86daa6f21f2a4d) (-0x2eaef7dc2a714f7cb697534758290607fe9ba85e4f640ba1288ab6322127d130) (-0x639320ce0e0ffce1e38218769d0253dd4e06095df73c185cef1dceb33d65d169);
  Dbl 0 0x301bf52bcdcbca93914f651562b7c772ed145f9453499353a4bc37cfc14a18d6 0xcc3227d439e526263ac5fbb7786f53403f76a91fdf5e882e8047390ff65cba (0x1e758dca2bf58332c49dc84eb5d21935dcca8bb6252ed7bed08ed9b575da3d79) (0xfcdd57b3bc7e06c862700d641640c7c637328f545a18a8c9b35ef7876e83b7a) (-0x1ee795e1eae5c647029c6b4442460928d88a22f55cd15fa327be83eeca995712);
  Dbl 0 0x68f7f426789253d8f5942e82264ab0ec46c3010796acfd0827e333ff893ff2bd 0x26c05fe92fdb8f5eee9538916561ccc733a5961280f982ae923129d6a8a388ae (-0x13f59b254a23a32bea13413c751e440c609d824daead2143deea3ca0621f4bf7) (0x610e3660aa04c68fb5c48629ad1324e2a6b936d9952cceb3fe694faeb2ad2fa3) (-0x380b82a956e2207589810ff0120f8a100cbff5ac193c135706b383168729f60e);
  Dbl 0 0x2a05621ca11f68c29ea9efee9b13804ae0c8bc7a850e728ced908bc937b2c072 0x9af1cc9db5a29346cb6c4fcfd959f592f615e5a86ba86c29a22ee9a2bd2b401 (-0x521768ffd32b1fddcece762f14202ccdd9483619d958c84731144d814cf89369) (-0x38a49c97ad90fbd391bc75e5ade18bfee64cd7a30ab265e56d7b78b0269144e4) (-0x6f1dfdcb93b53559daac03702a14f86930bb2864bd6c7e9f8581d1cf3f1727ef);
  Dbl 0 0x476e5ea4d5552b40e5ed4b84a40a2d3a04295e2b4971d54a5801b434b004700d 0x3a0508ee1cab22f39c72a9f39f18994650f839961e1d311de25624e44ccc5f2f (-0xe6c2e91ac0f5e238c53f7610568e89f7c22fd77b70c1a354f23e745cf61e376) (0x1de52250cb584b46a68b07884dacae18de967889ec9a8e17ed31c7b2afa1c033) (-0x2e06630af9facdd5585a63b1b5d2bcfd7034367a20c2741e139f3fdbd7fed244);
  Add 0 54 0x1d6d502207010a17900d8571f63eeab694179ff452826280aac836f4123509fd 0x651c4d3e64426304151fb5c07212e3074fbdfeffff50fa577fa3918bc9e637e3 0x246a24e01753572ed3d9fbbe2ab448ad0f86e3011778f168ce922a39a6ed81c2 0xe63ed29155fc63c754d79fb1678822bc7b508e393283e0e844df9b007ee36dd 0x1f9386536f55fb3f62819697e2d3c4cd80d64f9f5d506455b83d86369e35b898 0x15ab7b9a0524964404426d1dcd8829c928faccfeb733e1593bd4e7781f3db7ee (-0x2ee4616609e03262adda612eb4c581dbd03bde4c683cf0c1c598b71d1ac7ad4d) (-0x342fe495a57a5f1ca59da7fb7e87a5d2b4c7846fe4535647e0ec5b8e571b455b);
  Dbl 0 0x3bb09fda643e6a90ef10c6a6a5ca2908e1ad0e9c8cbbc1f7cb06678ada9e696 0x57aef124361aeba7f1a30be37b90662f3bedc5b7f8f4c839cd86e0980192b40e (0x50b791e7ca9a3d4df9e4ac5c7ae8a10c46bfe116f588c63c442ca7b2867a8549) (-0x311ac58b80ed7bf68f05d159077bd28ab1f822b2e4d653ef1dd1abaa7933abf4) (-0x93fe997d94a3e532efda4b9f0ab3b7a0b31e0297791ab6c2868eb228a179e6b8);
  Dbl 0 0x209afd677e16a41a890215bac8ac858c1486500f789c7945c3cba6afdbdd7a1c 0x2cb2e292e0f5771b5416c7657923fa71bc2626ffe01c6217518f64afff8d3ac7 (0x423332f65ed53358e0578c97c0b467d6f92eb7806c53e64394d69ed26399cec7) (0x1a3144d3759b4f8e8609a7638092890f78b0a89d730fb2a5fa5fb9714514fc54) (-0x6e1575c5ad4a7d5e481ae6a4fcb990477997ca15013cafefd04c7802945b6689);
  Add 0 63 0x6b3f1e1a56def1d28455d5582da492feed35389c312a04e66d2c59bd258cd6a3 0x701c160029802f4d43ab2c0758e3b371c6703539cac65da8335aa3c99753ac25 0x1b2bf5995ac1a4ba75e949b8ef5be9ffee162331a1cb357745c6fd2967bbded6 0xe2ed690d781bf4b1a86cf2d000cb253480e44d2f4ffc8ca8e8591787e45760 0x71b359f8e04294a9b1579f5be967d2e0bfd886ed019145a9d7078e5d87c68a6 0x1366bd4e41abb1923943ec1966e3a9b822225f190288695b4e7b82cb42d19c62 (-0x15a05ef8acdf82b5d5032f04be5edc07de2e6c2bd2409e5cfdec138b5afa817e) (-0x2d10d66817d920f72e828ee56bceb5866396af819fde96741b97ccb32d0040b1);
  Dbl 0 0x39f950e3b4dc7adb268ec1008e022549bc0ebd1a2af9a68606ac8ccfad0689a6 0x3069f699cc2b7d6f09341b5e9d4b357c7a191abeef56ddeac887bf6957f4a09e (0x933b17f108f07f0444a362e52c6d8f774ab7dc0ed83aba41b2b55f51fe4bc6f) (-0x9ec4d255614d9fbcac57e85ba10c0e0b948a7068c1ccb0e4eb22e35f893cb6b8) (-0xf84450bac6eaf07118e99616573c570dfe1cef529b4beffc8e07b8fe3d4d1244);
  Dbl 0 0x3928cfed63acaac0452031ce253724eb093e884cf16da6c05f58fbe0be9c67ac 0x4f4772bdb0a4dd4b37b6799a2bb9856c0c3eed8b4eeffa46617f369c1ed0bdd6 (-0x8c5f18ad81940740ac8b1df83ecdf86a785219a32888852c96605ec38f4a568) (-0x17f5862519707a1495628ac46d52c5b43694cd8eb3c0eaa31376f31e1ccac88) (-0x724b41ed4e981b3cd17a43d2417e7d966b35fd4cf3075e6b70fb79338a0eabac);
  Dbl 0 0xd85d180ec3ac6afc960b18e7494ae01ea1bc0ef176d71b4fbeaed3e60ce99dc 0x18a7d0b86d5f7a794f55a8db51979080cecedc705bad07768b1f6dbbb1543c5a (0x1a0879fac9703afb1deba5b091952c3043bd8016d6edff96491d8f2a39721f5a) (-0x490df1c7411acd565c549fc5709bce064198299fd68dd10b45c5b374cd7636b8) (-0x5bbdc55f348f93c59fe4196c862af7069df1453d460252a26bf0cbad0fc4efa4);
  Dbl 0 0x299c0aa0470652fc71e6b250ebe303aee7d1061211b15e2cc8095e7c0a0a0541 0x269f5267d462ba44127d4b635bb27dfe69c6573eb36015d12adc92dfba6591c4 (0x3aa94416c71550dc48d10548e0cc9affb71f3d1de9804a87d78bcab96552172) (0xdd2216b31c4068006e70df1d41aebd83f11a5201f28481055e64f44bb791cf2) (-0x18fd20909a69d3e424ce305dc76a0ab866a49e3c5d2f5d7e7afa6fe3151ae134);
  Dbl 0 0x4fee895e94baf9b1cfa50bd609a437231c07c38081e2b82e4429b81fb26cd606 0x30decaa10eec8fe629fcebd908e2f73fa7eab03bb8a55d9c3587a84ccc968fc0 (-0x2113f9e736eda27ae2e3cc2d330bf02e66603783f9dfde3328bcaae02152fc6) (0xbe8f5ee51361c1be482270d06f7db4031c17bbefd4f276070c8ff78837e9476) (-0x3408ec06e637fb481463764fce8be9adb89e4bbd33220e98cfd6ea96250b13d1);
  Dbl 0 0x5f29b47ce93dba9f3235a9f2c578fdd40ba115ec87929ca7c4211fe4181e449b 0x62464a022bc9abfe50ecd0388eb21989c3e6c6602f08cabcb859ed91c1c47155 (-0x2282c753a1959901e9cbfc98bcc3e5827d528615a4f27a953c1ed04c87e2b67e) (-0x320b43ea4961d3a58c02c72c023c99527b22f6415791b580a3171e591a609482) (-0x5da0edfd1036480134af10c9a741289fef916efaca01d2bed0557c894e26235c);
  Dbl 0 0x53e4a652ccc95a9521496accaaa6cb6cdfdb9b907581f8bab89b73516feac01d 0x14e7eb0d8351559596675185343c7311b5b40c34bc5b2b3b48a1ad729f1872bb (0x5312d2bab883332238691c4fe249451ee356ba08f2e4aef9ab8413dcac2fbd3) (-0x6205cbd392751eb6570664b328351a14d2841589c24a6dac006d06c50ff770f5) (-0xb134929e33496c4ac466a263fdc3aca65cdc51f6f4b9f96f71358e58d28be39b);
  Dbl 0 0x5bed573f76f4b7ca34f91a98bec9b4c7ea2cbc2b578c57601322325a437c25c2 0x3d434a886623882ca74fa4b89510d7621cb84ba0b7f5a94c830cc1bf7d80c6a6 (-0x38f0bd8ee61427bf6313d541ee1cd28fe9416b14979007f5c4de33b6ed4ad38f) (0xc8f031f2ed56121a788a7a1b9cce9b2836fd5b7064bde98f7747724c122da0) (-0x552b120d50698fc0e4709623ed0d26bfcb19eb96637569c88c3a138e42b2ed30);
  Dbl 0 0x69824b9c25ec8b39dc938532d2ab749eff7184af31e317d06139ca5dcd973419 0x522a3a544f46f1b58f4ad247d847d38a8eac1f7d3b0074941d128247c33da2c8 (-0x2885358c57b9e38cb7bec1605b3f750c4a15c9d317c501b2a3871a5156c3324e) (0x22e5e99148741074d1a345004b456c5f433f4e6e060cbc58af438291cc9eda6) (-0xb6a15aadf592cd6774c2a7971f8b6d35adc0518d3cc9053fc7e0ba0840f95b08);
  Dbl 0 0x585d39ba26066e97dcab2e02b7d5e39a1c212e314d05702351782e98c4c8df53 0x3d076b317a55e3dac2dc4d256a0f17e7933245cfdf3266391cbc1c8ce74dbd56 (-0x25ca875d9cf66a835d8e451d0afa5fba1694c7e40bb1e78466698b26fbd7ab73) (-0x3edefd34c3f7a32a9f5a7c03ae89440ce4ffbf41bb9b84875697f6e25917b0aa) (-0xd6221a2d5fb0c6bc4db3f8db7d03cce4c981406f27463895e0f1dbfc342cba31);
  Add 0 70 0x5f6196724d53da9791d5383dd4ea81d9457faee29fe3b3eb23e8b5b6de95c88d 0x6a4ee355422b032e5549086b0cbd2636ca7431ba43e1b4c7982c3ed0f67c14e2 0x2fd7a89db636d774af1b90224c3b5c00aa99ffc4ffb9c9709d0c053e2804f15e 0x319a593c19dcecefd3993babd1460c2c23148cfd3cd6c8fe5ea0be26d4b18d31 0x2e0c3c9f0ac299782b84f4fb974e4f49d00920b299173bf79bac6856e22ace 0x1c23f84f7740a5885f0b6f8ef3e2408aebc7cb6cdd91e18b46e7ce6b3eece731 (-0x14d8eb4674843ebb34218145e04aca7d3eddfc7488cd63eb37cc41a8b00ee9c1) (-0xbf15f1d0894468d10b21bc7956c561b50d4bd31cac6dfecf65ef91115ec9b188);
  Dbl 0 0x40148a5204dd59e4b23fd6972bbf8e4b572d817a6e1bbbd8332d4bab19e4b8b6 0x2a9a52a2ad3adcd0afec32872a95122683dccd2df78913877ca88473126b79ec (0x1302ad343bdfb0b69c6555e362a4b6225d77a93c9145f0aea98546e40bd590b7) (-0x82248fe9ff349439f28f4a87100f57384a9d08a8d18e8c857543fdec9c72815c) (-0xcdbd5e3f54407d981b4c7089eff84b41dcc6d511cd04bfa0b6c03c1c34f4b285);
  Dbl 0 0xd67a8351ccbecb0bc06fd40dec6aff18f4bfd1570a9e3109983562363ed4d15 0x6cb3ce63ff34a24060cacd4b2a3d523604a726f650b053357c548f6b514102d2 (-0x13c3bc30442d9c563054700a93088cc8f83508fa590328848bcecac204f59e6a) (-0x24b3b7118deb1430d5a1201bb294eaf774514efbb0c6be78f300cbf5d2926b42) (-0x87614722f47b6398fb6180d983eb0d8bfb8627e8c6efd990fa86e65e7ccaf05c);
  Dbl 0 0x4e7cb62f32bf7ad2a4302fb6a4ef69d40838392c10f0ca21a804a3e950de3a7a 0x6d7f51393806767df42484a704cf40045994617c9057d3e1318019635a110330 (0x646074ce93b0491573ca6e46ba3f1e20144dc9eabdf891aea09ee50bd5e72eba) (0xb7fba95e0b9a814482b070551b769823e7e851afdaa6c9c86bff83f8638ad26) (-0x9a970a0ff3e03147cd060073c8c1f951ad95ae5dd49c96ccfe213bf82d5e5bcd);
  Dbl 0 0x8791be4afca880154cc07f36486fd2ce46aaef9d9d18ef6f2a37b12d8c7a80d 0x41a061863c54564b1c59d29de588e2bbf2271d86105e9761840df3ec60600296 (0x3248e84b09355713fb17547bc00fe55307a5f385442e893134ae386aae338073) (-0x938343c669f9c3921510a59aa8332e600901895dc04ef3b1f263f4778babee6b) (-0xa265e4d40926567caa83bc9168aa14c1e7d3713f59b1f9fa22550b4c07a2f97e);
  Dbl 0 0x3fa6dd8709fd164ac8a43c02e3a15b2bde346b1ca5b637b854e0f876a31b1e39 0x3008114d020f7f2e0b7ba7429e1c9559b535d459b55a2789e041f4efa1cec8ac (0x24881445522f3d7dc07a48a2367e82294e3adae548751fce3924bdb8d043d6b4) (0x2b3ce09e02226ac3e27994099341cce07eb911710b744b99f4bb99c0a93354d3) (-0x4da2e10c8fe63802e160e399c9a2610c12e428e62396b7b5192d5aa341e661e9);
  Add 0 77 0x5237ae13d2c4d2d439f53c10d1d6763857d3cffaf3f6dc018ac0beb63a51ca2d 0x9d3adedec3fc2d8430a2d8a5fadb25f0da9cc707bba85d0dd454eef21c1af53 0x1a187467eadced53f1bbc11b5085032f69b2eb65dc4698d58375bbf8ead2ab46 0x2e7456550d1e83bb3812ccc159f200a54b5c2b2d4268d3d82264c17b3eaa50bc 0x1a9909602ad7737031b224144f9c3e528a9992793230c44e9db2334c1aff2ba 0x2a61e525e98cd54faac698a0b3a16dca672fe5faa62bcba09085ca34ebdda233 (-0x49b2732402ab4a6346aacb95fb4e0a99f34f25bf92a24355828e59561a68d2b2) (-0x4974009436b6ec65eb893b4d146601744e9348fd1cd0b81a8a3d75c72e1541b1);
  Dbl 0 0x5c011ba40ecd77f5a20ed4a06adc70429ebb019c7bd80e93f12d50ba79dfbd9c 0x17cb39ae43144e287165247c3c584e8cd1b0f6606da375767e0b783452564991 (-0x3979f90de90f1450bf22fa6781f44f04fa948d2ef07ceee7f4c927d194711a8d) (0x36a3d1aa4963d6c35d7be6650eaed424a1692f447848c43e76c43261811923be) (-0x4ce0c42bca6024a9e5344abf1ac761acf0ba0870ffca81f7fc83d37eaad2e58d);
  Add 0 84 0x469d94c69567dc6f37527fc65ddeedf68c6568f3ab7e8a24cb3fd046da594220 0x1ab9e35cc6e08d99068bf81275b2fb1101321ea394147e838cee7cb698d0e303 0x136f642bc8d5e3fc2358fe87e08c701f4705d775f4862a0591e9e311b56d059a 0x14273a1e515693f7c2fbcf9ee27e054c0f17f907f262631b256068299419785e 0x106940bcb3b971b403b9cd35d9ae29fc5932f9262add29565c56fd236b75e3c 0x13b76e85b8fa928193669c31472621a24ca135c59657d4e4df4adb71efab7ffe (-0x18a941e60f741c4808d9ff6c01822e7c410bdbacb90c93f542d1dd78baa97dee) (-0x3da67fe98dd55f7235cb8c68ac701d1102f9723d328036d9c8adfbfbe20189c4);
  Dbl 0 0x18efc9e5ff0430cc89196f4c1aa84968b65a960a538c2d5e86ac0cd3a7f1bd36 0x3cd5b3787b7386a0ebfcf042cf7067430a6cfab2b1e988cd555187322f74b5c (-0x24da4984fed69841347e926d4b6856a222c03ad7a7f2f67c0c260927f01df881) (-0x1b689b1eb9109c5e894e0a43f2ac7fd51113b30260566b30f5eaa415a19a89a4) (-0x31f5ff8050bd852a49e1924af8298cb8a779a0fa777ddbcf3692dae78ef006e9);
  Dbl 0 0x45ce6398ba440bed8e5a6e81aeaae400fd20e9eba20cd95191d517cb219a95b5 0x6a641d99e5b072a74f20b7c17f58b8f78888af6b0d51014fd2da1d27ba073570 (-0x53d4192923d1c263b3f000b4c42038146e0d9ecb7df3d5fb310c33c80ee9cca) (0x2993a90ee80afdd1a7dd18af4b2a2c9087f5949e481bae4b94996b967fe2549e) (-0x47593a63467806f40ad923cf2be9c9a712f12f4d995970a0489dfb97bad72734);
  Dbl 0 0x99bb8f31a1d30a72019c0e1f64fa39b6e6da1bd3688ad84b21b84cd81951c06 0x1f3cd1ee2dfea1b520f9eaae8eae42e0dd58250ba3c88572f3d0c8e5a9b69c82 (0x379aca701c94555e6e4cf0727e80d776f6a32f49f13461a48eda628c01600009) (-0x7ce600fc9c2798fb49dd305de191c3e9105760f56c175f0f0515518e3f5fee6c) (-0x962ae7e22144162c7d30ad9118ae0a9324985a14a2e8d361b3d991a9707f8ef1);
  Dbl 0 0x31a211a47cdb017e9b2fe519d22ea2beb44478564521779256ff2f53e2e6b8fa 0x37fc47f95baec8b310ad3fa7988f54be829db62d918793a17baae4d7741f4b08 (0x79eecf88b779f668b59180dd428ddf3f7d19c2002d36595a4750e674ccc5cb0) (0x27f2edab31e4a7272349ae46d1b7fe553834dec2e037dcf37b4e02e28db1cac8) (-0x3c1dba729f50deec9e43b697c9d7425e6ad655d47751427b2e88e5def112a598);
  Dbl 0 0x1ccfcea481224127028060bd558bf08d0a132772309f4ca6524d921c07eb934d 0x5a2e84c56911a7cf02141236df569079c395cabfba16b23b2583a5cc219c7f10 (0x5c996dfdb0b81d09336abec38f1931f70a45c89d1ce59eb63e156ecb547c9ca) (-0x2df350a497ef3629c66971057a427e1c762bfa6d3dc8fb4328530d7de4a1f2f6) (-0x3682aa6a2180fa70565b829f1dc7fb37696c18f03dbbd835fbbece4b297cd964);
  Dbl 0 0x55b014820a34df5fe9eb0a0355fdb0984c349cbeeb4d99893b8eaa39695348df 0x4fadecf39f7328f055996c09443291055f0b8f228920dbc1843115d80b2a6163 (0x3efe199be99346942628b7eeafa76a715dbb7d27f50bd252f9b9d1febde03d8a) (-0x22cb7c093d7b05b229a1d95fb3671cd7b8af6002e6c2e9b91e69f9f7248ac28d) (-0x56a4327b082518a7d847103cbb04b01f6b03085167c92e5978c3e8f2e097882a);
  Dbl 0 0x35e2ccad97ef6dc4b7734d10c61ab8792cf911aed9fbf7861ea79f595cf0a7b2 0x30cfc2e61d877d80cfe35134a1c899d7868ca71598d407f4d69cccb30123cdef (-0x8921deecc798a0c88d0aebb8ba652ae43a0e1d02799054b85cdcfcac0a66373) (-0x4bd6405814ff4c5b709c94b5455aaa98129d1fb57cfb803fb3722e51b3771df4) (-0x9c1a30fae5d723c6648f70b623ba3ae90b1358ea08bc89b44d5296f5f8668781);
  Dbl 0 0x1f7b2d8a03140ca7b58c42142e6c695acc40101d346efccad19e809b9f4d1642 0x1228380c904fa465040f3cc05c106382e683e87ae584936d323b7e68728cb345 (-0x47ec79dc6e20dc25f488c2632fd0bc926575d44c9c0b80e6375b8b72623964b) (-0x2141453d126b25efe130754e5d60e7f0759f365fdd0656d9d75ed0597185d10c) (-0x349751d6dcfc7405f948f3c12fbdfe97baa4b772cfb749eb52121ac01050eaa3);
  Dbl 0 0x6b3bcb1edaf6765c36ddd1fda2ff5fb0d50af021c1e6de56638f959dcc2dafb2 0x29028e2dc475d05e93347b5be5b2cef1c6589af4e4fd0c3f5aec2f6afb094e32 (-0x5b481b0584cf8c8c57849c49870306f68c97660c2223bb0af2ad68c7dea15e9) (0xe5f01e60df72b00ab2f5e5cc92333dd97c80afb8e10c1b6e56e306df08b9808) (-0x14a8ff67efffe9bd9c0136c41c4c2967b7b74f3cedebc9b69a6f3882a6d8c3d5);
  Add 0 86 0x2ead7f4352a9b2badd3c76e16ae289a5b19cb948e7915696d88639052a81eb11 0x52863846b4a8e5de29f2962d3d56f80f290888b026d0cd626356a15a3e7e846e 0x36aa8d9b38a7c15e3e18d9b012d8b70ae9bc0c19a31993dc267ffef866b0497a 0xa2be7ea3e55777067ae38090c68db6c02522500e9a7af429e9990d4c06b7556 0x248c0422e41fc4f3673d90c735c8b43ba3b3895ece015c2c1d46a1ccdca97da8 0x387c58f9cb851f1772935eee70c2689c58a95fd12e9481da5b5e12783eee1ab (-0x8ecda7734bfc984f38b5601ec6c844aefb3fb15d798135257ac83b303e7d392) (-0x850aa6ad2bafc54601f4df6c1c0d934c84ecc3a153f845c5190f25b3238f5654);
  Dbl 0 0x4cf12cdd18a91e993448eb57b8d94a0dc4b3aa82f3ad304fa4b76d2f1404b60 0x39c92c4fe05f8df4b28489ebea3fc338febfa012a0609c7dbb9b829e49254731 (0x27f372e4861141c80d7df94fe5b10e6525a7f82508c59cbceed1a5701ff2515a) (-0x3ed09de92667c586a1827e291e64bfc2eb4818a1c398bac46afcc8c73ef61c3c) (-0x7949eb21370b02f8f74eeab41aced3291a4f54eb283e28fbf6a210092629637c);
  Dbl 0 0x2a42388ba8e27ab9ed700a8b02f3e211a15800c9cf84a106880410c962680208 0x5a8942d0b1d8cabff9d63123fb08d0ef849dd500add84df4791344e52ab8a817 (0x1c9ac35dfb7597b3d0b919fe098235093ce39dbf1dd4c8812ad42ea3c07f629e) (-0x3f7b4b339394f13dd98acafd369f1a345d775aed38aab8eac9dbabff3e70ea8) (-0x1ec63112a03f10b44499b9e2281b39518ac53bcaf206ffb1043633d1e21b64b8);
  Dbl 0 0xfb993b3f936325c49e8c23853c7ba5c371f611836003a90f15aecd37440d9ba 0x477a8a64e3e86dc272d71a06f91b7aa29de6ab110a032eb5bc4cfa02b66411ff (0x374d2af9c328d5903ad61be330d1841e18c9f2c1ce4d12bb80b7b4e81e2c43b9) (-0x37af69725a7a44fa0968a29812294d91f69217403043fa9e5a41a76bad40c800) (-0x85053fe41d5b574cdf361b777a0f660ff6a10ef00d37d5f8cc9bd1d7284a103b);
  Dbl 0 0x29c2da4af7c25ee4f73a4704dd8bbd57eb06024b5350e95ef599bc961d4f115a 0x52a808beb1dae12dbc596948f52f08e4f9b3d70d331297154eb479e2bc592ba7 (0x29f067c355d90fb9d7360e8ccca2dedb34097ee594fae8c11a5a968334a5bd22) (0x139abb8b3fbb617e3a63589a30419039576a68191798e9e634c7cff37149c632) (-0x7b63446da5cd0e64fcca97094b95ad395907cd2781125b0cda0b8627adc4f7d4);
  Dbl 0 0x48f6cebeff2ad3bad9b874c1c4acc3106b7b83ba6f88f6229c5bb0b4a878fee5 0x6373aceb0b972ce8a24678b3bd14f902c3a0921a7b265dfc5305e29c0a1f8055 (0x2be3d1671b7b915fadb13d03d20e20eb88a74532b8bfb6ed45a7af681451e984) (-0x1091143447e59a270a0570a39b062ec0ef1990200fbbd7c3a33fe8787614309f) (-0x8490e631ef30b4d20e03d8684a72c7251f083dfad4c85da6855e2ada2c46d9a8);
  Dbl 0 0x143ec1ab4fc0eb6437a903e2bb2824eacf41b6e91a9f42b7b707a1a3a6afc0ec 0x6b602b155b7a3554b6a17728d8d68d39fed40fc758a917f47dc0aaa4d72c451d (0x2764ef7a0f9cde474141bdfcd280b5550e70bb40906c48fb9c187c27b972e706) (-0x739ca375b7c8ea3e5c19311e353eaea52f7c421548ebb19df6b596ef82b2211a) (-0xb6077da2afa1dbbb52dea32a61b8d4a4e44310a0848e7a53568d8fca2332a30a);
  Dbl 0 0x737ee3e727b8ff09376db3e52cbf92a378834234bf4389f468b5f626a90fe74f 0x1b65860ae724a1996ddf3f22dcc365bf107cbdc6ee57d57efadd524f811f237c (0x5feb1f749ce5ce057a06b84020ada9f0866988c0479a490834142e1375c0af56) (-0x14abfc0d62c051cae7c640df2b44813299740c94aada2b7f050b33257c2d5eb) (-0x6f943d2248e25452119685ed6e02fc002e5d4054bf7b352e76e6c118098580d5);
  Dbl 0 0x37db51efd692ac19f9179dd381d3dd438bceb1aa88af747dd4453245500c6757 0x3d422bde3086a4bd8eaa0c3afc02d7abe74f066967b3ee2f0cde2846e0569e4c (-0x6c9714a3afb99c90273687009468ffdec42198c8803fb606acfc7b6cb696e968) (-0x22e64497aefb584912cca6ee23a1260365cec60a7bd8ac056c94d127ef3dc0b7) (-0x8f21dfd1cbc0ea9f2b501615f4371584ea16f4dd6eb55dea284af1a246e72ead);
  Dbl 0 0x41200ab585a5addd64df3f567f404c3b2e7ac48de3ca174412c3958bfb5ed8ef 0x33b078a99962f7a030eda1009f3ff6568a6afb69e3ad73fb13d447a0c0d03bd (0x5750242c49ee2d9a2e539d20cdc226a3ed4274e38ade0a9cd0a2b796b965cc4) (-0x16853f3a3a80ff6eb5abf7c42df88c93ee3b08e5e912bf8c2ad94b1cc3edca93) (-0x3d181725a05eb5d565b534a3eb303af3df45248ddbfdf00fb061adb5d3cf1d36);
  Dbl 0 0x421d436dda2e6ae075e1ba8243c154fc1190a901ab392938d8b1c6ded7274087 0x5b82c0b6bca43c75e520c5701562630c11549e67f023ad9050c3409b21087e0 (-0x247ed2239fff8641c1694763bd18124553b97d2b1a75c28b9b76ac4505eb1c7b) (0x1e06711d05324202f25ca1bb2549eb707bbf29566a88e4ad0788e719a21d96cf) (-0x27963ccab7a7b5376a066c5fb216633e8cc88af3e92e76c11bb791edfaf2d48a);
  Dbl 0 0x139a3e7ab6c73dacdf406da7ed1ace6a36dc43c260de9ca21cfd04a9efd082a2 0x3d3065ba993c8bedfbfbd824b60cf58282d04a12a0535b2d12cc4df8b2f106c3 (-0x256c4c13f4149c85242965c4763845419d7d1b7d30c489dd288720a0aa6bfd89) (0x7e0b1f737cc2b2a3ae6a5569dbf437f3ebb1ce703fd94ba248d6f1c1a6e4d70) (-0x52f0e38d001a188eabda50b77e4d5145b9e43586749c74915eec0b5a04703eb3);
  Dbl 0 0x6cfbaabab56356558eb1619ae838eaa9140a35eb9f9bdb063f3f60a04213c42c 0x28ff77beabf72fcadf604c8724311f173d0166555042ac883c3b3a2a90c984ac (0x1cfb6806d14710caa14f2b552fbde362bbf8cff485df5dfa68030ea6632e8ade) (0x30ee43154cdfd73dc919ee00765f76b3cb87611aee32bae397c7b35035cf1be8) (-0x3dcd8592dc61d617e7760bde6760486263ff96992058d41321fc984d325327e9);
  Add 0 100 0x188eb2c417fe36c691e834501cd1862b9d3d68d623ae93d733d802af87e555eb 0x1c18caa7b6489ee580d82444f5b877e68ec28d09f6b5c2c1f117cabd39754bc8 0x1b86792ed3d21d4d9513f4512c3c6a8756c0885b989b113c299bd9f5deca3ae5 0x1aa755f99ba1037ca04e96ede7ff7a444d7f76f73a6f439b4c139927827a7bc0 0x3451f8db60f5894146c260c587289580f05c734ac6a25919ca555cdc54f9637c 0x21513c5dcd6be831db6aa1160e7d5066366fa0057459a6a29f2f8a915f6e8665 (-0x470448423bb1b3d55dde7249b1a4b6bafdd5d727def8c585c736115d9e794914) (-0x41d67dac49a35ed2fcfb1dab966f6883f7ac14f4fe9b0f1ca2b9da68430bb63c);
  Dbl 0 0x5cd034afca7fa30fa1b6763df7b019032ef5c224546fcd1f6422610b885a796a 0x379b8acf450a80a9e91ea9637d5cc6bda48e14eeaa9629b2b74a638cd51fd14a (0x19b8b65b8ee10c574085e223fa7cb723843985db4abfa6e92b1e4a0a48c41b6) (0x1cc1622621a787ee4cfc769de6e2ebb79b326e84a166114aac045863e7b5165a) (-0x245f37be13dd440b8b6162312f09fed2b6feb80471986d955b1546cbf71c54cf);
  Dbl 0 0x63a1db11a809a397daa639c4a22f442a4da907fd5473fe39bfc84886ffccd0e6 0x2b54849c535a838ba8cb813748f304a39ebdd9bf9cf3e2bc492c52e6d906b9bf (-0x2fa23fe9e8b53bc91b58235ad7761d713edfc5d0acb0307e5111f7c8e47e225f) (-0x37c2e6342ab33daaac35a133a03543d123ae74d38862ab5308b440a9d9a1aaee) (-0x7374178ebdfe0ca875a9127352113afc84ead213007d460b2b447bcfa71e382b);
  Dbl 0 0x199a0f7b2cd22eea68d67cfcbdd6342781bae40b54749f1c655c34bdf260aa45 0x487f3b6a34169e2c34f45979faf2f21b1b9425c336f4d845fd5b752193315817 (-0x456e79ad5114d2fdee2f6e7303317e7061dfe2818ff7f651496032d9b513a3e5) (-0x3427cee1380141d43928e79d59d3657b1963434d21e7e963f1db03ad46fb65ea) (-0xa508d1c6a5d71f50f9395b201c6bac68c84c44b0cb13351a5ee07c2422742365);
  Dbl 0 0x514bd26711f788a0376db226a3dbf4eea71a3bd26734b688d972f79add506547 0x373e24d2b08decc03fb387377760b8c357e958c0ce214c848239ce265b357a47 (0x27aecd241b2ae18ba0490402477a38a1c90e3de3c4da1637d761d8d04013f863) (0x1a46e3121caac828bef3cbe05c2bf1667d841de3d7ec749b4a5c34f8835efb6d) (-0x5a9af8c73eee6182814412f24d681032e79e043a71233bcf97eaa8528d9350ef);
  Add 0 104 0x39015e26e1167694a1528ee6042bc33565af525241c4535681d8b14927583502 0x413cbeed93aa2d1ad08d554ac4058901be0729516611e650dc58d54ed0b33a70 0x297195de4a9f2074598ce66433c1384398838306b3b11448191511bcdcbc301a 0xdb39b87c9fc51e0a3008abe004575d524864541244b329191d82f454be33e4e 0x30216fee0251830eeb2d44b8edd0251666e4c86ecba54a16a6dd1fb47d68ea74 0x50a9f989f8a20f54758eaa010c8356eae3daf85e9ae92f95c0e5abefb7ea48d (-0x1b61e566148da485cb6b262069d5825ca0276b27c8e0a32be43bdd184e87e056) (-0x4f1cda2d269ea9b8c43533cdbb769fd12cf49f0340c7f3062781c43a28ed9556);
  Dbl 0 0x73638c6fb16a5d7a237c048ac5ffb09a2f8cd2fd58a4ac7e87062733f610bb48 0x1ac1a3389978e243cbe7763a5dd10d69241b22e264a34093a011e6817cae347d (0x8ae293e1b62b492558d447ddb6e03cf559453a613dccae2cb678a7868578431) (0x96af80b542501de30d49e1bcc4d9cd46dd0728011fb390ee7402d672adff858) (-0x51cdb3472f46a9f0fcd8b72f6962e508b3fa7f4a7c9b4e2fd9f45d2708f33329);
  Dbl 0 0xf836b8dfd2916401afca69b62c866031623b6c3d32f1626b9a8d525abf7d12 0x2ed27ad363fdec13cee5c6eee975a487e22186ca58cabb209ca910c7924ca88d (-0x6cad2e879429c34b344f2ba30871ecc27f3a633f6b78aeee8cff758ba169bc18) (-0x347d1bf7862790fa7418306458f6ec33da8d558b5aaa3eb49785be93d3de7f7e) (-0x9e74b439038ae39b1c81e0d7e0aa0f935105b1e6d0baefac6a64acac393a681c);
  Dbl 0 0x30545d42711a2ac07f526a5e859b7857cec7afd601ff34c3c66abcf6f61b29bc 0x2342144497a73d2233969ae4a3fff5c70a32e728876043e5a64da86aa88f58e9 (0x12e721d45feeea7fc4bbaf9c00cd96d35ff228cc6f362690a4fa72be64c06b30) (0x19fad889a3d8885ce5fbd88844d6b6aa715a26677efbb1bec270c4cf11998a18) (-0x267195dea919600805b9de0bdb119bdcd36ece9281277546005b0281bb0d4e58);
  Dbl 0 0x2a1bcc46da0989e6a6e460b929e8e908a85db8b1d5c5fbfd26547d5b85f00701 0x10a5d30ea88474e007c7cf8c9cfeaafcb4e186fd7fe050677328faa6828673c4 (-0x96cc49bd634d4dda2b1eb0a2691be67148b299f217ba560a9df7fc7ba203385) (-0x126a5dd90350f1772db99c3582103500089f49d2f7b37e1d83203afd737b18b2) (-0x23369b60661c5c17b918c12f99db7d6a1b9fc5a666b03180d575547ea9050b31);
  Dbl 0 0x4a86a27dda4f76dd47e7ee0cc66386f164e684d6c7f681a6e7c6385a8f781840 0x138d44707f6a65bf53c2ce6e75faf1918657639035f3630393cae7b8f6253e5b (-0xce7869f40ce2bf0b0e283bb64a1e68cf791a6da392dcd528b6a22ab0333224e) (0x137852ec132b708550005247b3e6d89908f31fd5a06d4b4d6bc044573cdfafb8) (-0x19f76ec4b0a637a032d470b9870590a5f65046c8024685e390a92f2104e1dc6a);
  Dbl 0 0x26305bb22ae3721b2706de0724188e53e9440712ae06bbff9a6392c6e00d28e7 0x3e118c09b4804de970917737e9a6045a1a4f7e6fe801d0c09569dad3d78e4759 (-0x2c9cc4a79a93420b9cf54fbea2e87c5ad3aa827a57c4aab9408050411cadad06) (-0x11089ae31c9eb0931ec20cb5465181b615cacee860698628d214ec1ea82078c7) (-0x40613f4469b473ae81ac6bbcc9825bf64c2777aa2842b98e6c8ebb289440d8ae);
  Dbl 0 0x54b98f304319a955e626a5b5111f6ffc161f984a3ef321e3de9dc81a56520330 0x485e5bf7b8335a5bdf780ad9bcd5e0136d1a1d738bc43cbe05bb788931ab03b0 (0x14a6d2e3fd6eedb44e871e5604f5c93cfbb9d4fec25f45a89b98036a109c8c67) (-0xecf4f33f904eb37a484fcbfb942025620acd8dbe645f92138207d3840bb42ee) (-0x44175443d3d889e49a85b39165eac1097b80726f9924973e4f8059f7d7cfd232);
  Add 0 117 0x75edbb33f7b8fbd3e7f567ce8e7bb710590bf2d2c9f42419cdcee56c9b25b26 0xa47f495ee969c469b3b9c34a49b591bb79dcadb6857675437398a43d123cc2d 0x53ad7da853daf599850ac545b90013451bdc7a308544deac3d1aaa2a42c3113d 0x36b219adedacc2de77efc02b0099b21c95799152681abd5ef9ebfea69ac1fc09 0x231d67c023b67748c8ab18516f5013fee96f3b503850399cbb56a26d639b94e2 0x238b63fd826ef086e55385569f81294caf7ef57fb20dfe5be8c082b620af8e79 (-0x848bb24a738d9806db6860f93f1a8a71419e8dbee7b040825c576b10532556de) (-0x8e81a29573f44dd3c686f79e2717624aa2f1a8d5c4da57ea8d6164fd99314665);
  Dbl 0 0x208792e7d74d918716e88fb4f1dea261aa96736d621248b8b4e09d2015181e81 0x353588a4664ec2e0afd9028cb7b7d67d915de7f25375211da321e757499f875a (0x71736bc17fcec322c2d5f81445608365d262a2b56d808001884b6c0fd1c03b) (0x1658e448773009197aa15e8fc1d05b6702d3dc46c520248aa75356be076b8bae) (-0x28128cd08b5d358ee733df4b46913d9fa464cb065aa4f0050223d5a852f4805d);
  Dbl 0 0x62f43cc45a34830db1ab37176e7cc00bb23418ead50ded3fc7785db3f4d87009 0x140f9f2abae0abc4eb69874a4fb56b8c75272c092abf7dc0c3db263cce9f054e (0xf4b5383f772e157c04454e9c1ea59673e9aa14794fb86bc1e3ffbd4f0b57d1b) (-0xf766d8a81bad8ba85e23535b245e4a10685ea367d0cd7c103c7ca556b7f62ec) (-0x24780a15cf744f2a07acbb7a6f95d7238f18f90de38429c6485ac04dd25d7d79);
  Dbl 0 0x1d705b281181165f3423f8fda9f84308e27fca4278ab6b064069370f09fd7386 0x10f1dc2c57b35c509363117c778f3c2c67f113a5326c7b43b0d3a974c4cc5595 (-0x50fe60592dc6d36a11cc4fcbab2254d159a47f0823e3dca36df90983444ea427) (-0x193d69032b731bfb6686d7ee12febb9bdcff627a9ba1d9a0c2301bcf4a3936e0) (-0x5d1f0b7c3e21041bccee3bde349a4dd523034017f63e4a0f79d88eec3392478d);
  Dbl 0 0x6fbb9acbda78598d8e3291b582456421b6be42d1dba324fedd395269be030858 0x52222711bb1c2badf0c7ebb0cfd947b37480af0b1bd3cbca7f403a16e0459591 (-0x4ffbd083349c1ee8cf482407a83917eb25df60ef514ede4681c0257716bda57) (0x30383d71f5d6f7dbc4fbef0e83200f40e08cd333248435efde33df1df6157b24) (-0x33b96992b2990c8f4c05e81fa8bb7d901a9d813fd4ddcfc89c07bee8966aa167);
  Add 0 123 0x5b2070ba30dc53842da664b44e34a8e8a5f402251002f22881c96bd95b2d1705 0x2b7d35cac0f63a54edafb139600150eaa680573e8951595c757bc93203a41f29 0x5d1ccc4fbe9b16d85b2a3da90405888d4c926cddbb64bd018a80d7fd5e5b7c4a 0x1a0f9e302b839957f486434421488bda44fbe5d9d0ede58ef9c6117b5bf34e7 0x61a5859ddcc0809c02ea3489131c9c36590f9893948ef4f2215a0ca1cb072c62 0xe2923e0e6e3709500ecd5928e7db045d4261aaffc0d194c471860126d3dbde5 (-0x353f4108fd1429192db9096baf09a76c8cd16e073fe136883a5b0a5fdad67a87) (-0x670d5c0bfdada4f880f26ce47357fa9556ba9693e005bf26998a4869cda6f0d4);
  Dbl 0 0x4fbc5f9e9909d93d0d8b4dc924667f3c7dcd131a3f2fe904b967fdfd9ab6f71d 0x7120ebdf86b02453257e8a93f1a72b6136af737eb0c399c99c19c4add9708d2 (-0x375115a2ddc3da4046f810340737fa93b7ab535a94af5e259199d0a6b7dffc84) (-0x3c61b3ef8999ae71b31a8924011db93e3aa37089451295de9491a3eab8e7330e) (-0x58a767be90a51f7ba21252820cd9fb67c63917ca18aa7c04d90e7567ebebabbe);
  Dbl 0 0x62185b4dac5d1ccb5bac4431744fd0b381fb327124e1eab40b9d56f5f8188f30 0x3c51702d1ce0fbb190623c82ab32a043e2f17f45909a050b5699d4bb23d43b39 (-0x36694a9673d58bf8b7cab7a4e9eb5fec0b8daf035d17ea92cd8a52336f95628d) (0x526fc3ca5e5c9e6934531455287021d4db6bc71ac24f69574d6776ae07bbc5ec) (-0x6ff1b41cad75f6c3c966a7894293a16575237fc6fe4e3ed4c30d0b0d6eb29263);
  Dbl 0 0xdde88ccf4f95f2e646771a576b922caf613d72a10e9ca85e69dd033929a4f7f 0x5ca082c7c929cc86c2c5d9605823ad305c0edee8936cb90f3f474028064c5fe9 (-0x339f136a91f19245d4b460bc0323763d70abd88f9ca9e6bd7bcff3a7831fb9d4) (-0x5a66e75db0fa1a8d66ce05de960154f4f8f8f10fad16abe6d6cc4aec23aa7965) (-0xc05fb55316de6ab24cb706c8b71592718554480806daf24ece28b2c156222aec);
  Dbl 0 0x4bc4ffe7d948de7420285a051d3a1a8f67e8a017f2171cc20b0adbdacfd7b477 0x8460023e1c5a5c04a0624f00eefe3a4a08889c0a551e0aeae3f68494f91b8ce (0x4859931c93ea57868cbb0d768b3719df83a8dfc7415f625a1125225a7271bebf) (0x2ec93ab5d40bae0d328e00b24f5c3dde3e8d7711cf41f91bec7940bbe267b079) (-0x53327937f604b6887b84754bccc2d14eac39f299d2938d01bc6bbec9261746a4);
  Dbl 0 0x4f7d96bc454160ef4dc477b6e629cc0424783440a986ae9a29e33614aa302867 0x5ded1c91b79fa0dec3e6a557419e77f10775a0c986385ac45e387902b7cc54e5 (-0x30ee84a95ad2284ff11e8842e70abe993603c461c59eaee109d8fb62e8ac592b) (0x417ed78a7eab32fc60da8c71ba520e38e66d29fc595f10af4226c22eedebf90e) (-0x8c47f2e410ca0fc1d03fcbde092eceb0550a1d0f11b50ef44fbaf3a313a0fba1);
  Dbl 0 0x13d9a9405dfae34f3c8d8aeb03660472169ad7c40653ccfd922312cd15632277 0xa13c2da20985b30ccddb4dc0caec1565ab88fcf6f4b9628e4abf5a9391d62e1 (0x15981eb0b13e79d9e13fa45bd60a2455968b88111983aca8d515cb4d1423083e) (-0x6f860a096d621400d34c88a6ec231787d0582133e19bd9809696dbc265ca03c0) (-0x8b6155279483291e950a9e9401bccc6511acdffc32a4c22c52418dd3d4753472);
  Add 0 124 0x42fc4ed9253331d0bf52740636a62efae7b40b34edb1fc9183c282b554647801 0x5c9cfc8012499a27338b92f0bce9314070c70d10549d3614633947b93384208f 0xa1e8fe8b82e14f536c3ec48c0278f277f02b015d23afa80d178e34a8ef49194 0x27fd87e6f0f20b49000bd6a0e24523409927c1159bc9202ef4cb6c58e339c6d 0x1600158c6b6ae6eb9ce0d86741f0c957393ee2a284834b357152c559bc7e249c 0x29bae22dc975657adf7db223be3d7adba4cb38aa03a833c620f5b9c40cb2fb1d (0x1ed8e5c9e548f1e11b9e39a2fd84a659844e49eca8a20e77303304fe59678f4e) (-0x452d64ae48c35613718a87f597df17f47bfd213c271969a2e3c47cb7e7026618);
  Dbl 0 0x1d00528139dab71a1fc5ba76ada4d67a0022faf21e326a3fce566688c7c5fe84 0x1ffcc5804b2001004ce812a78a6a3b6a7e58f64a18a3fa1b3979b6e1fe3ff789 (0x234819dc72117ddc6c955d1d684ce32b46499e38e9230d6fd07255448d61cae1) (-0x5772945cfe2d1cafebcfa21ed74aacc6b5a19a94d18aa269b8560e9ed4467ba2) (-0x8649dbbe616b684e010aa6ae6c08d89d9e28d3ce4238306a78f1bc31d14e9647);
  Dbl 0 0x6a238032b958d56ffe27650072775fff375dcff1f740b44c847ce5231fa9f843 0x488912b5cf53b974791a016c1a80bed8c49496f638836afa804a89523e61df5b (0x1922b221ae80ebea1f88563ec7a491b192ad56ace3d0075aa9c52c555cc0065) (0x53ac697dcfcda7ffecddc6ff8314724c6460d20e9f4f2080db304aec55350e4c) (-0x543383daacbca959bc56ad3bf7c9660bb63a9f2a8cd4dd8f91e2151a0a3b94df);
  Dbl 0 0x35af1e0f01e5e4bf58282399f4705410d1a4a69aa841d86e60703d725d19a07a 0x57f0e1bac6323751ed1a2b33d33934bf657d787f703d4e940e458a10b7e58307 (-0x33ca75b90ceb88aa801fe482026263d740a27c43368f15124efa94111b8721fe) (-0x61eab6aff372d45f73721ef5f4862ce5384a9d9a86c1f11a4dcdbe8cdbaa9376) (-0xc7bc8e8ced0bfb7a7a0af1777062bc4998606d9b198e4d43a77004e39cb25b76);
  Add 0 132 0x729c2a4e14fb1b868eb6a592d170440af0f776f1ee87655b8d7518587a50b5de 0x4b8c6185e00adc94216914ad3de070902a94e0e45874d4aec2896e6954a0a5a4 0xce94a207f9c6576465a7ca49304ff19dba0b5e286cb2027f815d96e82fe5ea9 0x1f1de2952d24d13d14502250f378e8b57897d9b7b7f26256a14a2fde3fe48115 0x75c4107d49bfc213c3def0b52b0f8792401735f9f549363fc0564858f0689cc 0x26f4a4d17dad08cfddfe48c28166d65069c6c742174683d74b3af23a6086c5ac (-0x27b6dc4eeae08137ed982d09028474416a0bf8162c8025e28c2eb79588619ff) (-0x44dade7b7fbc9e3820f6c6f039bcf86752a7b1bb502ad5fa80e758ac460fcd7e);
  Dbl 0 0x4fdbf1ad0acef88acf1d6e7ed6240215546816b62a63bf4906b245963e91198 0x61e193e7e0fff492515dc4a8c4691b177822bebf7cbe9b4139e65a2dd8d9a34c (-0x4012be868fdffe09431cf2371043a2720ac7d92983ecb3395306568ebdc2316d) (-0x919ef21992a52cb1c72d16d7ccd279ef1201a87f3b6afd0eda362763dec79b98) (-0xec3ac801733c6c671bcd482fde65457e434155106e87d714cd931cb880d947e8);
  Dbl 0 0x60a58696bea9dd77383f140842d1673ba41cec27fc4469cbbb4217cb2aabc520 0xed5ae8510116255e75345155288848c5cdb0dfdb217b3f31718840fc11da5f (0x526db89472c965630714e5e1479363b673d2cd3fa6cb9911eafff6462498ff5c) (0x8f394ca4c9ddb90aa3fe2fed91c23b2bff2c1ecedcdbecd3235b07eb54c6040) (-0x53066dd2378cc224f0eab83af3925a8a490e14e2bbc9b6ec988b91e4f80c029e);
  Dbl 0 0x2ea9810ea29deb7faf1a7d642da08d8fab55ab79decacf10bab43e55d12357e0 0x2dea67961691c6e25f3439639d77c5ecd6450dbde1ef0266419f4fb86c4865e2 (-0x50907fed1c5935c20808a18a8d07f381f9638281ed497b7b509ccda45c3187ff) (0x31156a42a72369fbe97cd69971eb8993c8e799535315b81d6642c0be480ca40) (-0x551e7e897e6f8edc6e39f83f828c05d77aba691f05572c399b67077fc6f8e5fd)].
