(** Steps leading from the JubJub generator to 8 times the prime
    6554484396890773809930967563523245729705921265872317281365359162392183254199 times it (see ProjP.v).  A list of hints: nothing is
    taken on trust, every step is checked. *)
From Coq Require Import ZArith List.
From Verif Require Import ProjP.
Import ListNotations.
Open Scope Z_scope.

Definition jubjub_steps : list step := [
  Dbl 0 0x35d84b4bbb504c30df6005260b550f1b00db242e7c2dee016712bd2b0f13281b 0x412ef797a253102e1bd0d6a40e717a0abfa0b7c56d0ef92a81cb8292fdc6f6d5 (0x4dfe600d025b4d0fe76b6c794c061305568b443a15b021e65f32a56ffcc26700) (-0x1f6da998733797562c46598a19ff577e8155095417bb2af888f5b49c1cafbca5) (-0x64833e3d71434d3cce07e307aff63cb690f5c803c75e6986a00f1df5f07416ec);
  Dbl 0 0x418795c06a5304b331a056abd827c71978eff27afa09c8215ee6ea58e16d529e 0x26668692b8b72e17d0ae9d9d1048e1b35a8481ac15adb193dc7e125dce4aae1b (0xba44b0d4a7af8a4d3e82ed4f3e0b2019779bb4119bf51c4535f4a2334f36c51) (-0x2d9954705d1f612ffc1b0ce0e833ca98a830c606553c5d567ff16f5ae77065ac) (-0x466c12dafe8e386dc84ed8742f7913f79161db3002b2bd2b82b27218912c3171);
  Dbl 0 0x11dafe5d23e1218086a365b99fbf3d3be72f6afd7d1f72623e6b071492d1122b 0x1d523cf1ddab1a1793132e78c866c0c33e26ba5cc220fed7cc3f870e59d292aa (-0x1852448797c1c0ad0766ae1173104997d588ae105ce00def0da017aeb3ac748e) (-0x2844583ff01a4b81a783b8e591619108ab9b6407964cd5117fac15ad835fbe33) (-0x36ed35ecdbfb876a2635c41b7c6d3f9b293bf85bd6bfabefbdec033dba0d81c7);
  Add 3 2 0x609bdb2e9d71aebeeb41b6181a44584906ccd72f7b7e7524c906ff1ebc2fedab 0x24c8bf4eae482efa6cb0d128f74c4ac66666acf58198463df9dd1f40a71b3aa 0xb5fd03f54ccc3bc932174e737aea24770b0b26951ff2e1c35c61f66368b1ec0 0x3735bfd652ab393a635fa6267bf233970e2cd7ebaf9b80e1a70673ad1da064b2 0x1ad094f9b8ca48299e560413ab68a57dcd55dce855c6cfd0afba9b076b32045d 0x13b018e994e47745046cdc60022fedf9f9c5ac1ce5af698c6ec6ed76b9727119 (0x12aa3ca43a8faa4877b9fbba103ad708ad88059705cf53d74179cf9d185926c0) (-0x4470fdd21714af895940c1929ab401b05511dfcff6d7144a538982b6e72fd44b);
  Add 0 3 0x727edb8ccc9fcf488fc041db1c02a1f099001f31cf25dc12ab4a40ce87e4778f 0x579e2cd6b0df568384e169ab4f3e00ab0f06a9e91b6e9c9691c76ec61e7b133f 0x2cdf2244ed7ceeaed0705ce3a2c67c46c10caf05b6b7db3c6fff3e4f4e31d044 0x14aeca51e2cc138f2d01e4203ae12f41d2cbd7e71c198bc5ab82b9d7194ee2e 0x6d5c0b3c887f995fc4171dd3d049810298492d6112018fa5f86d5332c26c2dc 0x259b861003e0b68f183b3dea79acc0837424d3f63a44206dba5a17568709da1b (0x25b749657a1465bf7cf5a86e8b6035cd756a84c533aa77bfb9ea3c001fab4ecd) (-0x75699ced3279a794bb9856030a5267989cb78651464f8b213630a9212aa6f09f);
  Add 0 4 0x1be1a0601afac06ce8e1aefcf76b69893536e13cbe4dc4cb0e2fb2867ed0ee51 0x29050b73993f43ccf4e9b9e66c278bcc8ffcab2ad4af55453bf709887bce9874 0x352dedf03a7c3fd75086455a310e2676b7a27423a737c37e8f5fb672f381caf0 0x3143e65ea1d1acb28b3461dd8f034d04526996492ff0a09d44d218343e236b70 0x15a22410e88ddb6dad912274c697aa001b39da1eedbbc84c4aa40e0d0b4c8da3 0x1307e83772b85d0a39ffc2f794d6f7ebad7677c140bf58f593eba927316da652 (-0x5e7c8220b25f39dbc6ae8099ddade4b964661acd589da0bbd0b7b8961e7c129d) (-0x760548922d59595aaeb7d198e44d4d9463a5f16a15747d6e5d189b92441fd534);
  Add 0 5 0x2f8709560fcb1bb166c83f1bf099602b36abd61befb783d9a75f2339a2d6c567 0x701f36e8856cb1ab3763ad2eb4d6228524a6cb1709a7ed6e14366519441eaeee 0xcf3315919aa774de5054b75e3cb4bb6699e94704d5f0a424855cc5f263c866e 0x1710765cf7dec33730ab216fa1f231d2535e192f82e8e44a9a71503dfe4e0ffd 0x2b8a90240741465310ad5bc907a98a30f1281373a0ee7e5f71cc095babc3365c 0x27b16ccf3102aa26817596bd5ef3a682a00005d928bc426b7ab6f5d0d9cae01c (-0x1bc942c127aa013ec289775be83a99da28474efa202a8ea165b12a2c1d0bf425) (-0x3464c87d9c419667a9f121a196e6bc0cf35b913e2a1690cd36b0856e03dcf0ab);
  Add 0 6 0x3ec42c5c552cdbe64d517e59e355624f3cfbe8831a170c82212e8501c85a00de 0x5e394d222badbe5379ca461a6c40fe263fea24aa8ae37a4825cb753ad8b68491 0x161330356b64e0f1b4691f7157dbce8a635afe140bebbae492bd9565aa2e501a 0x3f0b10c8c9666a8952ef22a61e64ab66f7b134ea1d38bfbf8532b2bab4004f2f 0x121fe057aba7da10520409194186494676211b85dbdc6c59b1bce0328684f454 0xd7547bc6f4d9ecd2329a0f7cd87ad90ceb374637e550f19b27b4f9e70c3eae7 (-0x3e325ecfe7a87af89070e8c481736ffdd622f21a1bd8ba1f280b458a9d9246a3) (-0x6e0b17cce34856150bf8bf372cc20b5aca74b0b7ec7b11e9f4db9f935c5a7d2c);
  Add 0 7 0x1d4787bb269a57978254687646f493d1f873b0200f1e586c000cf94c9d0b477f 0x4b5e196eec13c5d057a6ee29c0abfc9fe5205b8e92bf19c6288bc75c1081770a 0x1d272358bba8f9cd71e8222f75fd23362072bc9a87fd32ea5fb8edff18f486cd 0x34fac69bbe66f1dc79d58e0ac0ea69402917bf44b370c7c0a60c07d688166dca 0x306558f3994cb617d5b867f42941ba54352ff79c305d8601d3ed3f384ca89865 0x20fc243f78d37d6b286dcc562ed4905b7a48fa9b9e8c835ebcb6faa7ef6f3e4 (-0x3cc9385489c850bd3c9d2c23ba47b48c5fb34304d5600df605de25acc174c668) (-0x812900a80b79c0dea9d3aee1ef569128a961f5b94073a4d7b2e7cdad04e1ea01);
  Add 0 8 0x3b19443e19c75d8bf0239997ab4176f40b74c12ed107b9b189490e67e3641ca0 0x1cc0ce0d9a164ba9b12d374a657636fda09c6bb85bfdf3db2ab471b96c92957a 0xd996d62350475bd68b0a949671c75be539d9380241b3af3b2294bd6318d1734 0x2a60910d9ea978fa460a97a3eeaf9bcce9095b5602c48b48252b3fa6e8d596ce 0x4606841aa44392f42730eaeece995ac76c55683d7fa6f9da5b851a324f5b93e4 0x116d24d97c10703573f6643819d5fbdfe327a59fd8ec668089d13c3853eb1dbb (-0x1fdc9cd336a415ecd89a2c1ad29c70100f2d99de5deefcc6aded01a67f83f4f9) (-0x4184124549da58e19951406d0120ddfd7b2645ff28e5feb3a775fa84a8404ddf);
  Add 0 9 0x8db506370332e3ddead5adf4848f2045c94aaea46d3193b1e1aaf9ccbb73f04 0xe975c8340cf8dd4b02792f46f59a4950cdca3ac68fad07ff79a3820cbcd6763 0x1b730bf9eab16de41df16ec2cd883109377a495a1cf59966058716549068b2ca 0x102ac9aaae38d6f899bf783f3ddb968372e066495397fbbe427a7e547c1e2b6b 0xf3a7246b52096fd2e6e4c5e2994be4a48b3cabcbc3164f5a64f5b265e1982ee 0x3ecab23485d3f9aaf938fbeaaf4fb44ba0fb433a53ab254669f2fb336c2f57 (-0x278f76e74e7494e1404e6a090b7447594872baf188f6b68f7d1b4bb254ecfb26) (-0x37304d36b1d9fac7e8fa12fdb81d19de15b3aec8c900d0d02439a29e6179aebe);
  Add 0 10 0x46e987b0f9819921cd7637e46ccfe9041fe5245e13484ff61f3439dc2c972a38 0x2de7a2483adb546a75e212e556ce6b21af756ca5487af07413f6ebe3a07769c3 0x41d17c19f4e7539c27166f2bd8fe79306c9ace1ca911b2329fe6a2c269fe45e 0x8344bbca167c40b559c1a7bc4f3c6bb70377741f8f019c33378007640386d83 0x1ed3daceb28e94757737bf7aad165a30d6c65137a69208cfbdc2923172e8a614 0x1b6d5a26ad27ad63cf6387fe39fa4262b718c7ce51c8db9e21ff549ec4503752 (0xe260db433dfd54690ef06ac92333f0caf58a4ba45815bd326d68e9a0c75ede3) (-0x1d168078e8e44cadeb532aa13f705dc48550af1f2df99e336924071fb9a3a7ae);
  Add 0 11 0x5eed8e7dff63840e49a84b2d735e02ffc4f2e18584fcc43f65cb14bcb1910236 0x54e158765ea446013166c5757b312d1a2a73c41e9513c73a9186a0f24290a1a8 0x20efb7bbc47f3ba213b0fd7d0db61868a92a5f0ff596218c4e87facade9e4f86 0x19cfa2c9c5850580d7a4f89a02a203db6158da1292ef0f9b97bc29c1576fb537 0x1630be5243dc5f99882913ae48cb148f9a8e98ebc3f15fcee663341b624d44c1 0x1c72ad84d2d777341ca32b3ab12704945839d1a3ef0ef148625424c852f5a9fd (-0x12b479156e67adc40ae46fc542d91530f48956c6dbb040bbcbbd0859202b4fc7) (-0x60bd18fe60db357f65da033b68120152852948d63d05433cc047a83e7260dfcf);
  Add 0 12 0xb8c50f61536363a384898e1d88ad7bc09b82f91e409b705b070433638a0cd50 0x6c8708d13da537f107a17c73fbd723dd58b62eef09028deb564342041b57fbbe 0x2c17461c015b240d64d0ea8cfb014f42ff2a7ecfd852ece03f8cea0e1d46a8a7 0x2fb9d77d96595a19082178fedfa684c0506e1aa731bb7cd364b2751eb01ebf91 0x8b4e0276b21f8da766ec66433ca0a1f5675fad668f3ffc7cc11c2a127680665 0x36b3bfa3d30ca503542dd70daced38b38b0f9d9eee33c6b13e9e7ea79b197ac (-0x59749325c2e21a6d5026090302f49f062121655b7614fd734ef931e8e8393e96) (-0x7b3ecf89c41d1d8f19421e83946bd033526551f9491ae8c9764293852651e024);
  Add 0 13 0x6d094b04708afd5725d709f2550c89ccf27568d3ccc03a7abd17f12d8546dbf8 0x4936331851a0f711df8f2814eab296e2d6fb19edc87d113bee7f46ee27f4a75f 0x55d1c96ff8d5223b4a5b205d1457d4ef9b188056f966243c7b4621555d7f50d 0x3d05ac247d8479dc45f1c1a24955331d7de7ed00e8470f1f48f02fa83d8662ed 0x418f92ed4e05b024480a8f65883ca79bf5d64074c80f8067c65a8f4dbf86f05b 0x29faa636765ce54d0365c7a58ac6b6c28dad98f4101d9103caacc85a98323022 (-0x29671b1c8e382335e22dbc765536cdbdc814c689fe7fde90f8318dec059a792) (-0x66da9dac83adbdc7074345fb68747d0f4e3ccb2e40b82a503c2c891a267f9309);
  Add 0 14 0x876d8930b11bc639c26452268214b3ca66316d01cda1f14cddd90fbac75c2d4 0xc3b3223a075d0043aac31fdc7d6ddfcccd1345a41f704cc60c5e11c55605ff8 0x32a4ce813b03798dd8944ddab975bd4b82958f11a18ccb89cf938c232d6a642c 0x292a3f724c1e0e8dcea19027115ed52c4e8ad1bc15905adfbf96e23f555989ae 0x5619954412e3680dbbcc712cff15b4134da29714947acd053e1e7a90b576ce95 0x288faa045c19e7cd1c18cf27bb4e2810f9d5ecab4645997408335f27ec04e12d (-0x5a5784bac10e239f1ade5523c6eae76d084d92b53e0a75ea06f8a57914807a01) (-0x62fdebe81a948dace76918066fffb211e6c3537c9c0c0cdc39fd93e3454b326b);
  Add 0 15 0x4e4da1ad686654b5fb5f81aecd566a03d5603b974d8c84488574cd49fe057df3 0x32ed3c93cb7f55fddecff54627a5616573b5b6e0ceb5f38fb6eb6608f4ecf3b0 0x3ee6dbfa003bc0040c5a6ca3cc24f6e9d8cab49f16fa816c8beeebd91fb5aa0 0x6e096e305e87bad6af5bb58074160802816ba8a351804d87884c5be8bf2e368 0x28c354c580e7aa568f788ccccd53ce305ce2303765e8c88bbd19d13964f16072 0x1386e39640dcf9bf9e49c77bbee7c922a6554db26f71fe5e2283b0b39e1661ff (-0x84fbf3effaa070c236dfd9a550cef956ead03d3258b9b4440c24d0d56b7a63c) (-0xc31713d0d9d2e71852799ada762356a36a58281ff5bbb18ed60a08140921b54);
  Add 0 16 0x34a2026b5d1351900c89183015f38a5e3d0d8f5c00c7d05fbec9b11b55ef55f7 0x2d62bc0ab216fea894e484a5b098814ca64e94c74a2720df4650de200de4cc61 0x245e8960f5bacba8612bd1ae21b0b8da5b8d3b344ff2101383d88632c831c988 0x1ca27f226ebd4bbc3d37d5708d33523ad7ba98e3431a627171450f47e0af8efb 0x51027760f4339050553fdbdec635fb11c41470d115bdc40c1170b19f9959fc1b 0x26bd6c86070a57696d52cba5bba247b1cb264a71052273bbce6e21ac9de85222 (-0x16bb0bbd30f3438da299bbef3ccb341cadee281926b73f96f1f69657fc2d75d8) (-0x67c3fe7e0b25f33e2e8175328ff68db075e0202419528adb660e6bd0ccbc8240);
  Dbl 12 0xcdda569a643b1f8d5929e0c59ca32107df197b2636b9a290c0b46b172f73ff2 0x55b499b7b8ecd1db5515abebdde10c3400e329286c4bec1d41418b3edcb73951 (0x7cf052b7a7282e094d021458cc0d8620f16c18e419b8c236f7db12f882a9b7f) (-0x7bee2458d7c60b3f19c638c702af28e61061fb29a8257bb7257d2489c691988) (-0x650f409ef20b848930171587cce4c5fbd3d436e937904faf1f3ae014f941ddff);
  Dbl 0 0x561245f252558b0d4ad9745b33549f98f2e4306f0e7f55ce56777fe7849c7306 0x115ccf40d44a9d162d05a6e7ca65f68cbd373e0bf8fb8e4bf6832d9fcc96f6f6 (0x3def16d222aabbdba4893c557a72dbf2bd19fcf69f1c53b39b5cf2892d7de4b2) (0x1ba2d1c6272876ba1fae3a734056e84aa435e5e8150f640133ba068dafeebade) (-0x4a33af05326e36cd02c8aa5dccb5ab8a1167d4c55c0607c4de76b7f6156cfdcb);
  Dbl 0 0x6a9c4646e21b0090f82894e77a4c05ea9da9580b66996c272cc133e42099381f 0x3c493c78419c7cc5d07721405a8f736de62e21a0d9c877a44c7e8f7a53d069f0 (-0x3d4db8ff212372bbd2830bf2373da41ed5ced2840f461e279cfe903816608b00) (0x2a049d31aa606bb903078bdaba48923c633a193550fdb0e10233ad922f84f538) (-0x68d80202a2cffb3860b9ede90fff5beb426051b00a59050ae2424307982e10a8);
  Dbl 0 0x5fbaf04757e89603623f37c63bfbf8952bcce339375fbd7bb8ea56e1f38f0fac 0x604394c440ff857df9ce55cfbdc21cdeb80edc54372ee437e4cb70730bc27424 (-0x42b0e528bd007164eb261f24b18f37e3b6567a40eef4741a0a78864dcba59196) (-0x597318ce707d0d2ac5ea39b351cd52b90203baf13d5371d286e131208288f604) (-0x96f162b8df4a102e36274dfd9f1b82d8f0cc1357828ab2640522e1cd4b2ac66d);
  Dbl 0 0x9337c2845c3650e7906eae956d272b2e18810ca4f21664644558217e596fdb 0x4b2a4ffd442b54754ace254f50c66cd97ae48273b7f181ffe812d3460c3aec26 (0xe24cc944047acafff157b2e47a602196dbba24f24c6892f1a38686336a48d3) (-0x9ec89012de93b2a020d1f09e676616bc930f5e1c9c551a392444aa7db7637161) (-0xb9324b64f8dc40006b3cf717f577f49bced6a04d70b596d375b648ad6e267e02);
  Dbl 0 0x4d2a2c744152448601c2c1d2dffbefbd9e381b8a6875530e7793b8ec7e5899c1 0x975749529a4f6211824a07ae112df09218baef20ea85774e375e072aace05da (0x30bb8ba0c39462f6301ffea54b6f0a0fe157e40e7085a1a1ba47a00814b588d9) (0x124398e3da00d0c34d5203035a2b8858ef8e77bb9eff16c8feb5e987a8dea1ee) (-0x33118a032a6d90ac1fc4ab57298a517141871ec29e20df5f29cd43929a32005d);
  Dbl 0 0x6c03b3c1953feb8c26fb32369a1a72768d13f53b6d1db2d184ce28cbad90aa8b 0x333f6baf2d532c1aa20d92280c2079e7be6bd508335ce146a3713b4bd9d1df28 (-0x32974a83bd1b9220fbb295e7857fc59f6244692cff7e60d34ca0943291dca7f0) (0xd4e2a25f74bac70a8b7f44378615c04d98061c6128d8090aa0147c4daff379d) (-0x406bec4ec93b8dc380384f241d7150f47143e5cd20f66aace7375a097059a2cd);
  Add 0 7 0x36277f01a51e0f2443b5f09dda3e3b753771770eddfcada98efdf5f9989c510c 0x709685ef5d2d752be2ca55599b4c427ed64798ef1fea46854df51c1b82b40dac 0x310a340a52ef0b2d8f2eed6a5ef9f18812e53c9ed9ab084d8438b98c29c2f538 0x1410393fbbce1685b6e5f01cae9e068f218dbbfa8780d5b26ef78b2ddf093149 0x947ff1e71c8a7eca13661ded4b73cce6f1a9728c1dc9bcdf3579274bfa42761 0x1d923bbf6cc9bf420a7731cebec58f6258ff395f73d669cdd7941e842660254f (-0x10f9e15419803e5bdf63abea63d6413a65f09ca384ee75fec54a7bd20272f233) (-0xaa194ded0fe48a5276354a3a73e5d2df90c4f7a296fe418a714c01a21ccb297d);
  Dbl 0 0x4d5a9b10583f2b4264912b6d5a32c63b908d9ec4b410c2318493d9aabe8b3bf6 0x5aa15c864ad154df05ad0959cae73cb8a6d36f23b097a7c61a87b6a9fa55367a (0x540be574f816272932170ea29ee8d79074e0aed176e3c131baf6059a209e7eca) (-0x60163ab2e2f966182345ac762c53589be2d2f7a43ef310b182c03993491fc23c) (-0x914de1b248ffe52e7b861e0862e813a6e9a1e082aa3394ea48d4ed68169d9ce8);
  Dbl 0 0x6c35760c0e6168b158182a04cbeec5a80993ba299452d5e6b1371f5ba49e0dfe 0x545b8565f027eb48b5c135bfa36a25c3eaba112dc23759c237a1c8306542afac (0x133ceabbe4305d599d7147fcab9f94facaa00be1630b11df339ec91687d6e0b1) (-0x3b891c2a1b96ba97fc64b14c91751f51b2cdf47ffb9f31cc400832bb7e371e96) (-0xaa57da35cb6786e3e7714826eb6a46c9b476daf67d100c415c58cabcadcf9a44);
  Dbl 0 0x3eacb4e9554a772b85ef4548b291905a0ef834edfbc3f29a963989145b159fd6 0x25fcefb3aa4d218fac86638e0bff7ad22e23d0c79a591914758eb3888a333a07 (-0x279e75c84b734e71cf528d10331aa28d20542c9534d66651362a5bf9996cefa9) (-0x67291e4a1f80763f4678025178b8783c8f454a9c8dd8dd5fdb1465851983f802) (-0xc34fd4b951f2a777b63c24c9ed7a49e828654b4b4b816142816379afb57b47f9);
  Dbl 0 0x6cc0802909de55771dadb6c7804690c89fa1aa3a7544ff3fa74b8d56572ad1ab 0x6dee453010eb0f83eebb62bbd6a68a1c97c8404b348fbc9cbe259a2e467996df (-0x156f922117cf1983c71c20474cdf381230b0e3bf8ea9183b64f7e65d3fbb412f) (0x218148b7ee129a671de8311d49e829e3f46d67e372877c46c15a3c6a1b297b20) (-0x79b87aa564f163b6ed9590567c0d798bbe8532c8157252df92896b41d912f35b);
  Dbl 0 0x52984568069c8e0d686b762f0ab57b1f674c751a4332836e3caacc7275b984e5 0x24634dac0b6363b6db60df92f232d59cc4552eabc8b5294f64011259a2eb269 (0x2393f1ad030b78cdd35f2eb0b7f33a6f3393d6d814b6fe1d58d5d0f4cf73690) (-0x97b0c7aee77ebe705ebde8716ff04c2c2be4923ccbe05ca378532c5218542d92) (-0xcfc3fd7b65bc45280283f87dd7e8cb37b9a928d4a3bc25095e684e15fc3389e0);
  Dbl 0 0x6a931cf8f91e2adfa9da13c81d27c269571fab384dcf2f8e8fb23b80db681d1f 0x3dfb61ab09d99b13cd5813dc4186df09025a2e7ca23b37bd69df15336952f531 (-0x3acd1e5650bc69cb960c36b51460b059ff74ce0270bda51bac2d6ca5fe882c9e) (0x27b70af8d20dc17c807bba2eb03d733400d9f2c2c5b3d13cd1d87fb598163a10) (-0x53df6b1916e9a2bd7e9c19c8722bcc0e6dfa4cb80bd82d98c7a301c29ea0b67e);
  Add 0 16 0x273bd5f7c767b937410610ce2c99fa7b58c717775e45f0110a5a08608b4eba98 0x53c812867b7482f6233c4bd4ad5be8162217856edc1c36f5e976f728bf3f2c40 0x7c8039c1d1dd288e8cb51ea2ef04049dde40be641b2c80e9dec7fef9b72f6fd 0x68a1e146ed7fc77aa1a35cd10c9a8c355100bf2e3a0b66f86eb7c97ec74318b 0xd99e501f5c12dd757e80edf51fd31e4179482e97977265114747a2334183ef0 0x50b60a28c7a0f62195f31aebf4edb2bbd7bd5a520885c4797a025157b01230f (0xa0fd36ac853862a9efb6e52913d7306af27a68128cd2ef84356ce378b4d90dc) (-0x457ba0ebcb1506ab75e8b107860df13361f72c4eb4cc3d67c081020b22955ae4);
  Dbl 0 0x3d7f48b0dffc287343581e4291a120e547212225c9fee61dc9c327ec9e492eed 0xa8cf9d51cad23fdd751490eb28c41cefbc8a730eb81dd4741c2e5be8387f4de (0x2f456682e65893851cf571484ef1698fa9c1a1fe88ff95d25221743219ea590e) (-0x5fa8ce92880ca0c52910d9c5fab06b3962308beddd69b5ff1914754da221f36) (-0x5287c22e630b35ee878c1470695f37b959189c57a4de21cba0ccfa3461672ae0);
  Dbl 0 0x1aca29ed338d5efac391e3267de4a087ca28bb4fd853bcc5fb39c9f9de2975bb 0x31643026f4b81c35ed5f42f0b5060c3b5b21a93299cabac2e949dfcbcc3bcd38 (-0x1fa99e2ae90a2613b61ccd3341547669f976ce2a7b1d716ec1bd90f51b1bd9bc) (0xc288d2880be120ba03193e35beaaa5e0204d9aae427e0023c6cf86bce736b01) (-0x4ca2ffb1ea7283df571567ead191aa6076212ba10517b85ab90e91e21d8e2785);
  Dbl 0 0x5b9232bc836c8d42d9bf3dff3baa4c2d94c018fdb2b627254810a566386f4432 0x67669cd69eee9e8c169c28fb4d87b10cd1af689cc02c14f6e1ea78a104123261 (0xeda394dd3439b37be469f4413ace5e926dbf606d22269fc85e8b9b4544ce0e1) (0x174c9bfd197e5c3565864f18d2a1ceb0e0cb5b582c91fb4ea2e3a85832d546dc) (-0x4f51dd3278c9d26d14cd59e6494233a5ccfcfd65b99198f430ff9326e214a91d);
  Dbl 0 0x6fd97e4f372c3f4d01b702d2f797db6bf9415518c572345e26e2564493810952 0x5ee8e93204cdb8c6df1d8b5e4a1b29e1a2012114b3d5a1ae7826857dafe889f4 (0x13e5485b811f382343fbe9e8ab533ca340a86ce2c41182492474b15cc4d91353) (-0x38e7a0bf7291aa52adcdc708c79fbd5d9a61076f5aaf266b86ae1d4f3940df70) (-0xfee234f8b879167d56fc3b2ef255575986bdcbafb216e337122415498490e6a5);
  Dbl 0 0x4fae7f3f16d12cf0b20ae8c671c200d6acfa3d7a3f43ea585efca8eaf33bd195 0x3be8d266ae3832a8e451dd03c76808173dee0b28fc42076761cfadb72b7b66eb (-0x1e36570b1fb44a57f12fed90aa3d1ef8331f333693ee9ab12107b7cb4e6ad087) (-0xb6abeb8ba53f83a92e9087d397e4012486c3948c56b1a97ee8f4dc61ab8fa081) (-0xb9f82de13fabfdf598be8daade1f7f4ad64a42cbc631507e78469d25d28bcaaf);
  Dbl 0 0x3189844e0024117233312c606771deb5ef4bc4d1a7fd6020eed304c390f49b03 0x619cf4f3204cbad48bfc589e9c152f107450f2ebe745be1f31ce137cf9757f00 (-0x17ced744ab03fcc729a9adab4a2861960f7fb9a54455cb4c01f7660b179ecfa9) (-0x4757c4b4a543d4081c0136811d48e1dae368c9bb253a70d9cfea1ebb70105093) (-0x6b6dd2ab091af8fa77dc344ce61cd441cdda9a1ec882c6d2e8d2e19549d09572);
  Add 0 27 0x56419a2171d3fe3a585671204b8c21409c6d8f9f78c2dba00203563af0d96b97 0x43276b09d7ee2d359b912f3970e35e3a488fe09e0787c027f1525e48270e727f 0x1e4d28dd7ed0c060797d2b5b5100ae58f368e074885f688432280a48e9f344a1 0x26a705f3fec64af22b29dfc9731dfccbb1066a2404dee68ef244abb51b2c5c28 0xf59fba1625152efa9b8201fbc3da35f8b2b2e02a841c8c5559642196c6a287b 0x8568b07e737227340950dc425b84687c995123a82da41a8efee2389c070b1bd (-0x113ebffa7fdbfc2f75b547dbd16af1b5d129bd990956fb1375adcc76de71e852) (-0x7548ffad1f90c122a7ae0787ace78123da3b647401b435929496ee96055d2489);
  Dbl 0 0x4a5b41a4775a33ea39cbf5e5d69d1caf5582e36a74bc8add26e0cb13b6133814 0x5fc5ab3bc876c30b3f55d1c6e920fa0dbba4633d16c1677502e4d671b696c725 (-0x194746b44e638b253cfed26fcdae52a9018468ce817f65bdab92e775923c04a2) (-0x50dd0a8917a49c85318a4b15cc4f996f4f54452206896d2aa0990ce7a7fd506a) (-0x7fa3a3321d805094bc439f74875124fcb5d5b5e63f81e6db4ba1e0e5c94b6ee2);
  Dbl 0 0xc1418999ac7084ec2e9a5a2d4dc08f02a2b57408a0c1a3fb38ae642e3012e6 0xe7bb572e68fb0376bf8a0b6402422a093f1ac9e27729b11e320fdee0357f792 (0x1f6d9e85b5eb5d737f65e471c07f608f8c42b24d25dfe83a4c8968a8c7c147e8) (-0x7a5947c60359aaed187ec7006da52d68d18a0b104469875ef26e792fb94ecba2) (-0x888e2f77310deebd022eabc07e1b7aae6183009b297894cc468d755bd3b08717);
  Dbl 0 0x73160e7265cb471377d0929f63beb6c28567e86f04a8c06b729cf75e1bec6e16 0x399b486653c2537ec30d20f589370279736c57014cedbaf3f26b7adcdf1d310b (0x1cdf49e5f1b660029ede4e3c9dfcec87e8446282356f287bb47fcbb85bc1276) (0x3ac8427762e9ee169044cea673b8ef35e69857e54006d0b1423b0d8c071d1144) (-0x1f5513410a5a68f31e04d116d61c984ce5e1b700b7f83c410faa3fdbc4d211a0);
  Dbl 0 0x68dcc2d768fb2c886178662a9bc50d5c7582c455cb8e928d0beed834c1e375df 0x2727135d36ec03f3beb3c10e0b2ada84d416b6b0f20f3aaa93055e6a78fefb2b (-0x559fdfaae61c96df66e2acd039230eb341b86b9589e0e730ee62c0029ebc4e29) (-0x40744abdd21e1ab9781288dd1f3243cc4eb0ebfcee3dfe7e9ddfe6901b704062) (-0xa183deebb8c2daaf5570317e2af1f07845f6556378d19b257c7f5b0d970a71f1);
  Dbl 0 0x4bbe14f25b04fbd3bf34ecb9f548af3be5ccde8d96fc787066b05df3d1c543d4 0x20eb7ba841d5b4dd00030bc5a24249ae510fb4ca761f9b85d38fd19a1ac5717e (-0x51a12d138ee3f3a283476ee737dfc25bc8ebbd28206c6b7c18551e6e39fd7182) (-0x442db69e246b3c766930882c79acf5470e9ef61516a29012450d983b76a327e2) (-0x6d3a78886fd91c5e37e9e923c45ec2c73671a7297b720ee03fe851ff00bac08a);
  Add 0 32 0x1cd22f7becfd8408592dbd332d94080fd75440f9673040fd2f77853d01db8f7e 0x138224438716acd89adf5ea9c5e7ae30eccda1280caf6bf9943a2b4e827b18e3 0x3e059333481bf175f74f6a7e9dc8b6bd3608c82d3b007c630631242005da5230 0x181a6c6a05381e1e00acdb999e6ab92d8cce552af511f542b1b31815c3577ba1 0x5085e8a3128206ba35de04b6e807e9234444b512926658246788661f8e708abd 0x187a5e790acb901de138ab9cd4ab00c9db8f266e801797b86a74f2d8be6f13af (-0x4615d7aa6270a454993f5bb7c64188613f29002cb9f368b38350efeb7841a26e) (-0x5e783c7f70ccb42f59c101cfee3fcf5be5abe65535992bfa12ba1601fba3ff59);
  Dbl 0 0x672dd522bce14adfe01537556a24963b8867fe55b642cb1bf7f9524d1c7ec3cc 0x12a056f4e2faed1fd6214acaf645bf2bf0825608b6431b4d5c3ff092e5f1c021 (-0x3e1e2853a5c3c03e83290ff8bad0a5a9f387892adcb2e86e433f55516c37ead) (0x1a82bf532b2ed4720edd95d6743f8e3b559c76df4a7dc768ca96669c8b89b964) (-0x10fc28a34b7521a09be431a05e4f3e739c7e2699c1e2a206da6fd326691cef3d);
  Dbl 0 0x6fb9d7ace8cd687f3b421ddb097661d69e2e91af8f8dcd56840e16cd5cc48fe 0x6b6f36f1b3e968f5b5a2d751741d524b40029748ffff9d6c13a6268cf8128cb1 (-0x58d6d1842801d425cac5df11fc8eece31852838be5130a5aa1cd6f155c10f4ff) (-0x1d1b2483b44fc0173f3b18c0b047b5a0c8146263c231db33037d1a6303b067f8) (-0x9d21abee9649d09e03e4f712736b926292f810f70fa4d1cc6cf566f8dec53d1f);
  Dbl 0 0x1012c4b4edb7d4097197b87cf3ad36f61c145e3726905b1d54926b0e5467c527 0x3836c542ecd4108ecc1ffaf145d48861735da4908f5be1ebef4c698e82bcfafa (0x63246af2418f1410b3bebc3e526aa7e3356347052573cb2c9d53f626071bc394) (-0x44a5fdcf8cdce09326d4f6b9b008bc43c4d0454004b43ca19155af0892f959d) (-0x823e0e41587bb6de98d0ceafee7770b6cebdc7d737047a679687419409a45abb);
  Dbl 0 0x7220311d3cd5629f2f8a28f33720d54d37292405cb15e05ca1c498a0023593de 0x34df45ea11d9e517953d380d0d57d9783beabf130fbaadb9608b3047234369b3 (0x19079d43f82ef6f7cec67b05cb51e98315b42684d2f466bc73c8ab5d96e5c439) (0x524a81f6689dd87c0eb56d36c9ab4d54d0f81254fd51fb3300ca2811daf4a0) (-0x24db7b5f55fcf50915eb13d8513b3f334333cd2cc43887b4c3bcea2ac2507e7d);
  Dbl 0 0x1712a35658a42af6fa5b2b5ae9954d719d99e01b90b78e8c4ae4d468380ba00 0x6bb0d53467e98c038a4214b9ed99e3db87f2b85f984c0d5de0a5581913ac15ad (-0x583cc9ec412c44183116f6b2d8ddec53ce6ed1a9e6410fb25bfed70de56832a5) (-0x66c49e945c8436a733b5e3636bfeb11c3c38ee8e34440c681ffc4cb4bf5d2074) (-0xebf0c677845c3035ad44e8080bb09bf3289fc9b0104d4bb0abfc2272c5b85d55);
  Dbl 0 0x1ea7a83eb6c5e43d5cabc18bebd2f02d3a6083529b94d721daf93191bb075bc0 0x70a78ffbdef65908bb4bd10d2e1b42c8e24029dd7fe789183bfc50dd85c31356 (0x6405447e07486d02a482649b3528612c487cf554facb60daa82047b5b8118e39) (0xd6c562770ef1dccd16d8edc0dbd2bef9bd45476cdbe990fdc9d7a3c365db000) (-0x9f3b3df8c5c04c8099b4f8c6b8070c45d13b2544fe17da7ec938dfa1a5892b5d);
  Dbl 0 0x1fb82f738dc2448f41b7cfae306f8db35b1cea1fef66ec3c3e2cafdc7c231c1f 0x3a0c31dc03a0c41ff39272a81d619ef6566abc085a7386e39c53edfbe9950418 (0x655dfbeac3841e86ff0f009aa03248ecef81a84f8857b740bf812368f6f2cb35) (-0x222a3c9bfdf3252a834ff1e018b252a6e8640b706760823c39d08a04e10850cf) (-0xa41631d71b95f329ede7fa9e2695315f2c0dbfae009ef2c3c135e8c1e21c2d1c);
  Add 0 38 0x4b5fc8c3c9b40a4bd14d9e5d9b45351c392d8873610bb299dcd19c796816d246 0x51b58be0cd81f13b03bfe0173a59689bdb528d0c7807dd3e8babba49313d4f10 0x1dd56f0a5da2c055be33a16244c89ecee59f0a852e5811e8898a519cebd4c527 0x24a8981e0318d3dd275954dcb00c02c3a776df87c0d76d08769d1f9df88cb164 0xa17677a82ad5a7043ab7228b214abd79c04ae76214d9f117ed9182f3fec1b 0x276b0a768ea8e7d8f149fc6e13269bddaddeea72aca63f88063a7bbf07e0273b (-0x2ae999e94c8716d6437a59ccd2522583c6d09b2c0361d90b3258300b65df0ec7) (-0x64dfadbbed8b5945cef0374c96006b17f3f92d712f9fff3b6def2846085600c0);
  Dbl 0 0x61d708f622dafb0272292541f4b6d07881e0fb14e05861a646a1eee5b6bdd0ec 0x776b322ab9ba76abd9ec7fff18d80428c35346a086b2cbc9663cc58ed8ce72e (0x8957e65b43037f423d22f02d1041c72b44650cb7a82f7dc4e120d3203703614) (-0x36b3a800a0a8813e616b2470517dffc1d3fb737e133afd0cb4362ff4d0ee3060) (-0x6e879daba485ae442059bdf9d14d9f6dcd7752f9dd5f76a08f2c67280499ebb8);
  Dbl 0 0x11f8549611e5d304eea079ab4f904b293a5b186478f47b4a82432c235a095467 0xd5c4e5396d3b4603c71f39fbec4c663d035b5ee6806163d0237c0dd2a02faa4 (-0x5217eb79f2526695a1ec5d6d76b60ff108c924ef621c3bd4a07b26b7ac596d5d) (-0x9ace28ba1e7b513e0aa9fffa5fd6bba54b0fc39c7a9f7fda2f9e927e92281f9) (-0x553a45df771501e6bdd6ba61e8e1ffe7a4557dd0291dec12f355684fa0819570);
  Dbl 0 0x6a82fb85a04b73bd4f540d19e720487f851255d4e3da316dbbfdc7559d7e3df4 0x3c533ef2c7a13c991bcb35b96f43c81726ccf27cbc9d2d50ad8f847d5d6e43c9 (-0x13ee95c83e11fe8c816846fb4a06d40d76797b19e987ad9ac2469da404e68c7) (0x62d1191947eaf52b06631ee23fbc694244f8d9406be85da9bb426c2b94d2df40) (-0x3ea3668a9e62926acfb82a24531d8547660050a870a436799757f85bf9fd5505);
  Dbl 0 0x1d9a7c6fcd95424e997ebb2aa44551b917ab891e1fce1c8befee2323d2cad21 0x50a03095c0a87216600d5d56e9c701a903abc2b0ec2f1c7e94b7bba947573d8c (-0x4277fc02b9d007c9905f8454d5b66d13449bd5a54e3b1fff744b4475925d302e) (-0x6dc7a1b730e52e0730d53f52d15d2f3349877e1cbc1423876846ebc120ccbcd9) (-0xafe40ff5c860c94183f29eb240b327ef2e3b3dce557d1df68121e1abdd989cfd);
  Dbl 0 0x696fd7894f84646b7d2ed0bdfd05cd3d49ba35a42224eec28905b77f81b3c94a 0x360d55c44becfa1838639f42837c20a1db64a038733aba3770df1eeb8dfec8fe (0x380b432f2d247d9e83114b26d979ba2a81b3f77e00a23ccfecbd969e2883247c) (0x4f3b743e963bc5a5ebeb10b9bb0a5c24858b89e63bac98fe81c9b975e55b9be6) (-0x620a6ba9bbb0d6c4935c37a2e37708c794863b8f334f22958ce247a3d566382f);
  Dbl 0 0x6de9791610e0a50c05c3062656b5116cd9ed8dc3b0cd59e70e15759ed0cb7912 0x14ed5ea4977bbc6a68b1c44b983fbf6ff338c9f14764c8058a03aafdbc800d24 (-0x46b1608d7ce04766d0e0696de7f89b3fa362c77126beac15a13b959f74c69c93) (-0x159d1989119e48707b6bb2407fd807341573d8a6064555291c3699cb4bf5a242) (-0x87b3b2e7344500db2a3b932d155917d39cb817e866d9a03cffc2a46d9e4f454c);
  Add 0 48 0x89689d17277912400107da02fb74e20f39b18007b0b89ddf0a34d6ffddb6b73 0x49bb8fc73d13b0a7b3b172f10b20a4805ca8d54a2c96d25a2225a3a0c68fb26d 0x433b6aa92e48dc2f48ef3579fe3c593548cd1eaa18fd9c1ddb096392bfab2e8d 0x8496394762073efa3f82b15ba7383826aeca559d634ad697279dbc0b0c372d0 0x17cb46bb657d3abf4f0a304872389d15179fee43c5ee2c340b5ccda2cf0a5749 0x29f9ffc59cc33b3259e3c6d8bfbdd1a62bf3480a4ef7692e8fbdef853558e3cd (-0x3686fff7de943e75fbafb55ab8abab761c2b1cb0d4689645f3a2b9de5e6f9b99) (-0x5af082553b9ad898159ab42a52af6212be8ba60491b37c68233f41a427b352a5);
  Dbl 0 0x2e65e4e9d8eb619b50d2c7f9de700de0b6157a6d6633b9d9f7c996bd1f3f7b7e 0x69285ff554c633ac9a6889b8973d84a491c41c06c98ef8d032bd8aea7b276aa3 (0x2e425a6b0cc8a09d142cfe1d122046f31f1d97f936acb65a5d32ce0426a3ae01) (0x528b616281fa4f0b1b0bb20d872d7a464eba19db57d0cba4ba0574ded013b14) (-0x53fbbbc076b87763fb4998c7ae4c0b9a744f4593204c25713a8d5fcd6761cc69);
  Dbl 0 0x22a98651ec45008f999a6ebc99a41d2ade1477705531bf354145445c7981719e 0x49aeffabd584ab5bd50b3dae5be098a018a5a63dad9427e56140e64ecd991b5f (0x4cd16033e2b70f76291eb83549e39d6b4ca5cf60d816aff5bf424c170e3262c2) (-0x415df852648bbebc75ce5a5d5494e797a1e66910c422c5dacc36838e1968439a) (-0x99f01eb3dd7b7924d2251bfbc9bd1754e58d200040f8464ab78acbeaf52ec22c);
  Dbl 0 0x683d16c67636a656bdd877290b30d2fdc821d42cfbb10d478009c7af927cd772 0x2d81c172c4b78ca6f8b2f3d49f65c0012382bb7f42a4dba271dd6ac9bea924d (0x24781757a4e4229cde728383c8aa699085248a553f5f5e73cdaa67fdac0ea182) (-0x2bc37beac942b5f4bdae39daff14e8c5646cbe52057ebc3f88704cd495da83fe) (-0x39347d48c1033c2150e2f38c6ec9f1111be1edfd65bac760cb001aaa5b75f3ea);
  Dbl 0 0x608c2163f2c3c7903c7284d1a8f085c42193cfb7969b04e305c452f075674656 0x4e0ee4b6a1f4f46fd014b6d49a871fcfd3790a6c4f15d9e2dfc193a30d5cf7f0 (-0x5da86b04621df917f764a703e6a62dc1d6e13f05e1b0e8c0783ff01ffec0cfdc) (0x1259c36ee221fd5a942e2b2c615a06c1b7ac9b27eb3c287ab16e0c454f854142) (-0x70c4e5a1172bb4666dc12648bad94e31833f5abbbd21f22fc7cfa98609a0ddfd);
  Dbl 0 0x45409e0d9d7c1e78354f83ac1e32e47126a1f445f4cf386181ea5bed1ba541c1 0x3e33f106a2f9eedd08f1c804e2bd2f1e09aab4bbb337c7e8da3690fe0282c646 (-0x1bd8f814597cbf75b0359825547faf4169d38ff5d60f1d6aff9af744e2daacfe) (-0x4d56814c4e41137f2bafb34aa7ef61fa589ba66d788ed01eb71a99372c40dea6) (-0xb448309c87037ed24ba44465d24c0527cbe0d61c26206103a02ec81b343e3274);
  Dbl 0 0x48e9990e1407398613e1c256468c5fb8cdf3077335bff93c9abee42fdfed024e 0x6afa9fe7b525da381301a22d7736caad2f1fa9936851d1d6307908c3a11bb8e0 (-0x7fe630bf58e9a8c0e5ac678ed1ace3f44b94a3063a036ff70af856879303ce5) (-0x285ae514857e7ed45a0afd1fd303030c43138ee5c7b2a8c2eb3adbbe7f0e101c) (-0x7c9313aad9c9fe33b8418b7af15e10a0c73363caab76c32aa2a503ad6b5c33e5);
  Dbl 0 0x2bb5aeb7927a88b519c9fef4c4207bf3b794f53e89574423536901ac56050eb0 0x18658999f9acec6b2510e586b771845fe3f07e24f0bb5300dfb235cb137e186c (0x34dcd4aeea253bd2080b3dc33f888676ae847e80bdc7db8c3c5dd6fe60f8ea36) (-0x6ef90b3eea23cdfd9107215ac3da071d07bc92e0e91b8a04f30b83a4cffef060) (-0x9dbf7ac6301bc1feb91b61688c45a9bd0f7514d495df7fe8e84c08c0fd76ad74);
  Add 0 51 0x4067eb9d03f92e4c0d24dfeb420901e0e78215215c985c4ad8a1dfad531ec16d 0x42813c04256f9207a69df9aeaafa8a3185c53a60e42ebccba38653d093b530ac 0x1d8604b67a9649257e964cc725aa65d3cd9fc058078ec113ca1be6281f0fbbff 0xab7a1b520f621737cf2b8090974824c3533fc9e0f71485ff3e6e449ebd4e9ce 0x13b59c3d48ce62511244ac5b63eab6116b9ebae81ba37c083ea77811d988d5ce 0x2004194fbd6f0740bd511f5e89b297f1d815c264b3e515677a0281d4389af62b (-0x644e5be491cacfe8216fccb1006c5f80d828a1e2b30e9ee6984291756868b32) (-0x469c34334cb9906cba759c1c128d76bc8efd02cef78a72e29c599bd365b5ca70);
  Dbl 0 0x51ceb831851c39aae69b6029efbb6e6df3d9fba1d552534df998a3a0077f356 0x16eef7eb7897c99ca6864497935c2ddf4a7dde37a9956c4991a321b87e344b57 (0x25ec17ee8b91e08f4c6fc4fa20cd2d7e42e5dedb80a6c7fd2d4a49b2bc24788) (-0x49d1a35a267b585e9bb035fcd25cae98d68420b2f8beccf761334f19b88be60e) (-0x4a47482f961bc5680a61353de685c4f1fcecc948a307ae1b77c3cd55643c9554);
  Dbl 0 0x6141b8b76aa9ad809f67fa2d71fc9afc261d70115fdf01f155cb5fb571bd8960 0x70c7985f3c7cea140b6b4c62a70a42b98b8940a0476183c5d980199a4ff1c594 (0x44fb13d0edb8bb56c81294309a78bffbb912c5bf7f4bcedc296938b09b72c28) (0x3734904a3cbd34b1dc14cd5a9accfc867ca77c3d1388d329fe9fa1fb06fa566c) (-0x471fe9d7873aff87e15d25216a281e703d2675de5644533f0e658e6b08ee5b31);
  Dbl 0 0x21000c68ec5e458a6c1cc22fdc09609515d31664bb9de63eaf4dfd5212559639 0x566ed51ba7ae032a04f262dbb417188bd37b6e173b44f52cb9ce28a0c5015d21 (0x1c1fc6c4bcaafac8042e8fddc0003704c3af53da672c90341ea9c2ab9ac683b6) (-0xa57f7e6e461e8d49081a33db336be5c8e1b1a41fcf8d60af7b5e224e34065d76) (-0xfd77c629c4ac76d6f2805b26ffd9b59c099d4c9b4e2f2486d65d1f3ca241ea68);
  Dbl 0 0x4f9bd69b4dfdcf86e719ce36047bf2b2d435622132dd15e5ea13c0012c89c2ea 0x470646863240f028d4b042c45b523cd78df16123c7a9038abcebfdd5109bc866 (0x370c53a4bb98cdcbffe8148b6e364e6e06f2b99941cdadecd633d04e214b195d) (-0x1137b032435e6c1b5b862e62705faaaa2bf110d587349ae5e1014a978c8d5814) (-0x6660763f751097e0d787fd6210090ec14769a9b81460d8d74369b2653103fa78);
  Dbl 0 0x5c2d5d35127a2a52b8d982ba7431fd62f22e5afe6a47e015dc0a8ae92199c820 0x2bcf5611c6e0bab1fccd83f05024defc45eb9ba1371d0f9e1bbc969330699c61 (-0xb276fd9849df5270b6904f137b6593b7102499b184c5303bc3a7574485bd8f2) (-0x6018e1e1a4fb936f47f8ff3adfcaf19f4ede0c37a0949dc603bc5cd337ef6c38) (-0x62dec6afa480584412c9cdf98a62930a5d33e2cce0f0de40a4428555d0878c38);
  Dbl 0 0x137ff821d36f3722e3096ea1d765fa2ecfb982f1e0882a996e4fcd2b0fb1dea5 0x4592e35f7de6d4cced2e62746a4fd82b6389e40735bbf0026b159ae422bde2e6 (-0x38bc752e8f985f62e4bd2d8a7816d383c8258e5417de0568ae903a1bc23f747f) (-0x3460134b51b9eaad7c5228604056714c8fd8e881c71d5a0c921b6af2e295de00) (-0x978c7084f75f4721e10286bce122bc283111253fb1c6803e1974be2954b78275);
  Add 0 57 0x57eed3d651eaa9be06a1fb0fafaa41978eadd259a133daec20565942a71fce02 0x27028b362974f38e02643905baf8f9f913d49cebcefd532aae473880b0ecbf77 0x8da69e8fd6424921cb78ee737d9f662adbfba2df7abf7266b26843c1b7b60a6 0x1b3cec2f8b339ed9636b26aed28bfc312f93d211fc7b81587ea81db28c7c55ef 0x5e9c03d20c9ee12c8a01e53d0ca1b63f555b78994cecfbb54667a479fac5162 0x1d7d934aacf05c52095fc53c72aea72a40926a273332eb00a5a03b95ebd206c3 (0x1c1a9859996a0cc1189a039cc5914f860b72874335fd69e180253653c77ca43f) (-0x41f57b10bec5ea50ebcb920112c9f2d67c5ffc603940100bd6081f1e5e38fbdc);
  Dbl 0 0x1d079a690a57997be09f835f7c7e72ecb981506a663b3ce81afc19e7725fae55 0x42a85b0b5ae15f45eccc00ab2697c088bc3870bd639f05a44f3ea2cc04006bc9 (-0x35923bffd3e7003a46a2cbd11f5355cb1af946dadd28ef0c66eeec2be2cd603e) (-0x34c6b9cdb748b631ee1fb8a4b623ed5cdce24301ba80938eb21710875ca2d4b5) (-0x5e86d365bc2e0c047b992c2241d72b4f7ef068c27bec374730ab3ddfb1d3e8e6);
  Dbl 0 0x1f4ea461ab338a1c895f5bc78a294fea41db87d2dd496ba06c58231bf845367c 0x14ab889145f81d6a736b60e8b7c53aafda2423e1b1c4064c4add6f44674c6ed8 (0x1f0ee1abbf11db8183d989e70f28e4568b146e8244be66fc203f606bb299f05f) (-0x18d205010fcf871e154aa3191ff7603f54e646cc642fbd777f609abc982259de) (-0x334022bf2475e3c20f114cd491afb8139f0954c63ef725e23e00c7579c4e6472);
  Dbl 0 0x231e9c5c5798238e2630d7c14a59c66c85fc5f23e43b50bd9f3688500e97bb1 0x6d2eb08c9d2c53f0df48ba236fb2e31b3da727475b1810cc53f6fc1645e98c29 (-0x4c4ec903a5467eaf5361ac78e6c354a7c38d1a3aa396968b1d486e487691f49) (-0xa67e45f9de63280916acedde0eef91b4d102adb6ea1e5618af17b7cecf8f197) (-0x31dc7a9af0f17334a0fb9d8e7b835eeaee51a9f99ca1133399749bf8d0765a5f);
  Dbl 0 0x643ba61020f8d20da1d2f3d259543b00a2f04c886b05a2fa626b353b6e0416b1 0x37accd7f0b1bafc8314b9880811c82d66069130b48a75fd7cfe275aa5a843d33 (0x66c9946ac1fd917970a1c97bffd0960b8e24e11f6e8dde51e4e7b94c57b746ef) (0xd5a505c90e1b356a0af0c4672836521827b793d0474a50c355532155375633f) (-0x70957deea2181fd0445717b73e8db9d95a66cd7a612305646c54d4b03601e37f);
  Add 0 75 0x61df225c3bd1163999db01c35687e068a10bf9c8a79d4b81c6a9d80b12bbe9d9 0x2ac8d4a54ab63ed7ed6a76600c3a9ddbbbd414fbeda3bf1b6375e4c8b0a55a7c 0x62fe8336569dd9a2ad195499d250ed1115ddbd3d65599d89ad8729b6bc278b50 0x2a142ca775b7845bc87d54acbe054d0dc883249d81e9410adccd4c64af83f5b1 0x1f13e1f14e1deed88df774bd9f784424cd887c3324e7cd2e83b736750ef0a376 0x24fc40df2c5297b1a79d2de0da06b79dc2cd66b45e7c1f76d345d1ea91c399dc (-0x46eebf03e22eb44ef78fed207daebc83864511d5253bcb243e174fb54fd503d1) (-0xa73801ad553ec7c443fb70f94e7542fa1ec606ccaa39b9ecd901defa2374b228);
  Dbl 0 0x4255bdda66a3e26d0f031f71a1b6e3ecb9207bcfd0edeb84746480261d84cbb8 0x6a1966aa02d25be371b687faf26cc23e10e7d35534fb5611f1ed9c624f91a136 (-0x42d65b6bc2ab54a83e1fba058e846da88beada1680c0adc724c5b55ef87dccc2) (-0x35dcef1d8d1c364306acf92d45d6dcc3578ba1d69afb39dc591ce1f80b258180) (-0x7fcfdd48ff4f0a4fa5df7f6d62a0a2fd25921a7333e9f4c1aeaac80e1a5e280b);
  Dbl 0 0x2754d19cc4bde054fa967f298bc0ea52a4fee0ef0415df04d3c666fddec4cc46 0x5221e9b35bfd3dab38cfb1a9e00e4b9f0409f7fe32ad1396a2c66f9e794ddd65 (0x3b256e737d31cabd98333d84b9544d92d28c1dfd007fc76d239075492fc2f554) (-0x681368b2a9e4add7f41dc23a68b3052f58489c40dc155f11213a92c84a621ac0) (-0xab482ce68823b6b937a8abebfb465c70bab710820f7fbbc386f13274f723b3ea);
  Dbl 0 0x664e197beef1e6bc859574898c90797cd17b60cbb9d101bf2ceb2a8784678a07 0x35988aa9bf19bb406da0792ec2bcb94b62a0d58ef9f38bd4af9d1e7acf5cc9c1 (0x2cd848c83ddc26ac46d512ca54886f85016a22b8899b7efc2b72ade47ad5c9d4) (0x2873f9bfed816a281bcf87c5eadc2bea4d9f8f61261395bea3cc779cbe6f08eb) (-0x79ec021421d1b2be20008a5280d54132417512a5d04a0c36ec4880b65882081c);
  Add 0 84 0x26370eff439ee7ec721be1977ac9ae21fbc7df5396ace623ea5216b42f7fe2c8 0xada2a913996b31c7f1a82f1488730105103ea46b96909155ae122a213c8602 0x159c6edd2391b14f6862b01e3f91f66d622eba2f031b632a5e72547d324249f5 0x2d6534f36b010c4d8f967b703cc8d68d5ae97573d12f7360fe8c23e9019a4e5a 0x589043cb20f55d6a7878a89520e7cc05332c10884b45ff985cf96cd237ed1fe 0x1b031b89436b894831653a89434a7ea886a35d89ba9a80d5c29c67760ed0783d (-0x5725d7e3dafcbb366f28c1fb3162ac2d10137a6a554bed31bfd1e7ceee8a113f) (-0x4332d3c8b3c8f21e65ca40106fe6e084b83d27501f5d61ab1fe4071629c1709b);
  Dbl 0 0x199f7275a7d0bb43f766f280ff26aa26447179e0f46077fd86aad3f582b29733 0x1290ea5040128915009ab931b971336a23e0ec3c16002d7316d0ae335745a588 (-0xc97e8f98f7834fcb3bec8a85d2046009404fc5584fd2295e925ee160acc6f55) (0xaf9101154b0fd203b8b99c6006e78e2f0df1061132e10e6fb8baffdb21149db) (-0x14e04fa00f17d140b4509c3b4b60247a2acab2b825917b7dc50ae9b9be508b7c);
  Dbl 0 0x3de99e3246de53bf8aded434442d9ba3fa329ce666bc1871b173116e722ed03e 0x6e779525cbeed99c9eb3f54734aa28dd83dfbfa563f7a85bf7ccef4b50032165 (-0x2b09a8d4bbbdf9dde9bcb1b241f07b31509e516692bb4cc07012f296ca7273f) (0x31b119125b2739c0c4caf3e4bc0bbfd151a186fd17963a9273c08d91e2993aa4) (-0x6ff139d8ef88a0b45285f5dd1cfedcb99cf2cfa12d3c9b168462c70588d8988d);
  Dbl 0 0x51bfe86a282b253efecc04181b4a8292b32db750db37ece5468ebff1f93c3fc 0x412af2d0b8a8cfdbcda0fa2565826af0dc782c2afacba224e8f1626e82a05b2d (0x4832bdd9d6e25aef958835fefcb7fc8a71b124371e68faf6f27d77f9f0b2a3b8) (-0x71ebbcfb8e20f6084d30decbe8650a85ac87caa86b69632af26792bde6821560) (-0xbe40c2e9c4ba956bb24810f4c8f065320245039c5f4de71065b3f5a4b5fb319c);
  Dbl 0 0x17e2be1db0b615ba293c25d7093715fa8db0bc13f4170f60eb9298e60cfe08b8 0x3c34ff0a043b4d4a05ab271a39b578d57e24fad974a68242807e42a1ab3f068a (0x24687a67209ab21787fe6bf34d140441c60feb249ed42628eb9285f16cb21235) (0x11516bbd3137fc0de32067006d612bc3d08da7ff630e3fdfc823722a3e332f48) (-0x5efd7c7a485b1109e277f79f98f07a5ceb137fb3b0ae8323c7efec5d23db474d);
  Dbl 0 0x6491f0294273e83ed396cd90f0f3b2b66012a051d184eed70c25300512387ea5 0x5c8926c943ae62aa96f9cd420d2a18da9c88d7518ce6b3b72d3af9a391e6f464 (0x1a58d17012814ddaea40735274e11a4c0d6352e2184c555b012f25c0435befcb) (0x12b8b3e64509f66be45494735150eef07eb0b2156cd388c2a99b7d100bf8c6fd) (-0x4c3e569a6ce42b64a910e9cc0780a326eea4ff73a642f8b30865d8e032204ca0);
  Dbl 0 0x4759ba6a5574a0c5393b32b26e5ffc6860c90249e21e56087ca214472fdcfd7c 0x2e145a02be82e3f007143fcdc17c3c32bbb38bc0d958d36093bef059f9f76ea9 (-0xd620f701f902b7a385db84e0a525234d496b0c1c82feb5115ae01c7ed4b9f29) (-0x99961e121e91c0e22b1356f85424baddda5740fc7a11b2ff03c1d135525f6868) (-0xa59bf0abdeb36f89617c547e9457015c74b7aaa79be238c1fe864c7ce022faf7);
  Dbl 0 0x128a067faaee17c6d58f713be05714cbd40d5746a5ee299e6bfa0d05a072e965 0x1fcc0a563423468df438ac2f2b7f9fa016e6e7a82caca3a69300c8185ab8f25e (-0x19992d4b3469c63956b205a2d50bd3b78719ea665eccd953886d2543681b3c25) (-0x356a284d7f10a6cbb0f85becf44258bf2d4755e738590156a27c3d3204ace73a) (-0x43e6a80f18c1716109855cfe321b94febee576fee34e1fafe67aca3defd93dd9);
  Dbl 0 0x467a3c033633900cf6da52fbf89435367b80ef64df8d7052f18a14d6dccdd5a4 0x3f3d42ca607742c833dcc07efb2c88ddddede2089841af60d1276c0500d50f0d (0x5c1af40663442fab9eee02b2a4e48210ad9f4ad44488579ec60ef18a383a765) (0xc6ed3469612aefa6f0dd474207790486ebcfb19243a137ef0ecffb412ca74ac) (-0x1ff7b35b4ac1eee10e736bf50faaa038f6e46ffa5017ea627a0b05eacd1d58d1);
  Dbl 0 0x4ff0e890bb5ab742437fc4233c94fe035232792dd195d720af4c4b5532acd9b6 0x47c9404fbe599192409c52c2b3ab7b0a425c0dd70a091dfc8c007180cd0154fb (-0x8594cd8cf9b3aa6dc7a56d26c47c5bd61bd92626d3b066eb17370b14fb4cd15) (-0xcdcbacca91321e13d30d4281d6fe2e3d1b296d4a1ec867c489723766c2f84f4) (-0x86d73ebc12d609ec309cb9318ce2f073ab6ede8c88c0e7721ff33240f3a2e65d);
  Dbl 0 0x723b7aa28e40e199862788bf9d18e9f8c3c95a10d3582e0debb49f89b08820e2 0x48747cc077be305dbae108c5861dd5d36049efb0a49965693a334b3f143bd85 (-0xaac543e7168fa28293f18c20af6e969c651f67e05a35266cf6b1ebc029408d5) (-0x427cee12c651e58be13ed77cf3d89af300993cab0eab7e9f24f873551c356f10) (-0x64ddbfe613b04b8b083634c0f5ce4c908930219e48d6afe63d01a3d63ca83725);
  Add 0 80 0x69c6f9dd08c41b4437ae4bfef3d8ebfc58d46bcb51743ce7919257601b80429e 0x152b6a136ad60841a1bbcc735de7782bad16dfaf02453788f8dbfdce92b1ac09 0x6b70ee350cdacafcd6224eb5c78b1faefd4e213ef42ca595910c65dc718dbf78 0x2dc1d8773ff1b4278be109cd893ac461529d4e0a201504a2a4fd565ff5b1f79 0x3750aa5ceee6a4bcbd277bcb5ccd94e9b99e52a58099bc03b04566e3a5d40171 0x12437b3b09939d86e2111d50f0d6897e816321aad669f9747fc00586b7ef04b0 (-0x3ca2adcdb64a8c586cd4fca15fdf7b1d8bb66ba1a838da356e8d4cdf89461bf6) (-0x7174b9128597932d7b5ffb9f063bd58cf4627b5c3d68afea3724b28401571059);
  Dbl 0 0x53c8a940c519212c3a974b0f067df7d87ae128f77c7600501626d8ae3c5ac0f4 0x46ead501b49ca3fed801aa77bd6bfa2227384b6cfd7e3a5e81f786855fe9b864 (-0x5ca6365d57243091e4ee51f6d0c54dac2178127f6a0e21a638623bdde44333f6) (0x1e15c0f23599ccbc99c1b96e3eb4639f9756e4f127914d79adcc21172344a2c0) (-0x9e8b7cf6cf84de727550f0640b713031df452811588b71d3740ab01e3cc07d39);
  Dbl 0 0x579ab42e91c96ee74e71615e53e3b74d2075ebd729f946da67b6abac4cffb8f9 0xfa58ad9870f3ff6d185b38c1f0ef40297adcc463f73c93f027902cbeb139cb4 (-0x112b7778f06bce73b70853ef8dcc5b365e2e322323066a6269e111b4d34b69e4) (-0x4c3f2cb9839e0c73999fc9bf67a9b40ef578a4204d8c93529f1eac982560155c) (-0x6ca004a2818b111705569d8d5d5380839512581de0ca49907f376bf79251ec88);
  Dbl 0 0x33afdf53af8b97e1efdd6a16400283349cbc34df9fc86dc72b8961fbc0f6958d 0x3932969a0f5f4139433e0f9277ab60671836c4cb865b4895b4492f05845a00ee (-0x4016b5ec31946cc0625c5eba3c4d66b068619b6413bcd2f9d77537a767fe4c7d) (-0x170738fa13045423593a786141b0ee4b2f31474add326a727831acd3968068fc) (-0x44ff6c8fe3cfb438dfe573e1d6d534f87b43365809e25ec4a7f9896f51967b6d);
  Dbl 0 0x18c6b96b8a4f38ca43514877c1204d97979ff18305a74c27bea2b52cd597a8 0x38a3372881fa760c158b8125f0958d84635eef4154ac60742b8a0a2989af5a81 (0x52d0077ed789919d34a8e52644378280d0daaaee47fdc76ab5061cbc6d6783d) (-0x32f267004211135c6639a9d75022fecdd023409049599da2dc7cce4996d09a7c) (-0x545f718e6463e149ac814aa9a314b7ee8a8c9f917e8354a0810d5191d87c4849);
  Dbl 0 0x53dd41d3b5a4e521811429ac3451a697b1f9ffd892bb1c3e57aa27659d44e193 0x37f894546f75547e5de71a29b262dcb2353a07adf107e7bda281941f15730f08 (0x1babaaebd1fd6d1ae0570ec6304f368d3bc529b5805f0d3c7e3ef17949fe0c60) (0x2aa6c072489369877da083e4e0f044140a88a4c1a2e49cbd06c6d0f3e38dff63) (-0x38330a2d1162771179da611887aa03d53e7a6883121290306315cc227e877739);
  Add 0 89 0x4b35f92bfc747ebc49ea488bd13b390e643564d600254e6bc66adb24988d544d 0x69c6f79d0387b7ef9236525a7d7dc1618e7c057633ab372138757e8f57dacf54 0x334c88c8ddaca54638a531c0a930c96f4ac3488c9c3bcbcb8147d3713097ee97 0x1629c574f0e30559b1b51cb9e38bccc7518d6e391996d73f437a8241218e01a7 0x1b497071fbdeb58cc112ba1aa2afa5f9c28c1de5cc34175714a79cd247d3ce95 0x2a6e34a5acd34f743630670df49d80076b4d894f5443e810b83d9c2236702f7b (0xda36e4b1e63b058e0ebbd8af3c252dd5c80f1feab4fde34d4db76e554bb351) (-0xa98435ac9bbbf6c7f0c258b3b5ebb152da8d5f38ea7b5deb28a6ca638f3e6100);
  Dbl 0 0x58f5ecb5c96f9a059eea44c16b330050f3fa538e3f53ca6faad4f12cc40b9733 0x35e29d2ec0661c5731bf71362cd86aadebca226a2838c6191fe10e66ab960d37 (0x2fb86e145c2b9216c8a6b698b42c4e487f8ac4d889764dce773434ffa7a18e89) (-0x5676f2d80278a855ecb8877f15f093c340ad1d000025af4f16d8ce2ed42a7b4e) (-0xb0124103a6fc9c35f1f65487139403a9c038657a7a5a61f52a2b71309a5a40fd);
  Dbl 0 0x118aceb79b824b3660d21a950e249bdfa69e6067d7b2b62a6b233495e34207d6 0x704b33e6f888ad32293c31c47d6e6a0d8678987a397fad69c4cbee2d1fec015a (-0x2b3839df65e14301f2dfcfec302c0690c9661e1410200850be422a6030010718) (-0x47bfd181d574347efb2d287297b0dda790bdc2b4142bff164eb83370d80f4d6a) (-0xa36a43b664a18a5f759f18091b275a3aeb365a53340c9c669674bb99fb5f9ec6);
  Dbl 0 0x6b58b874c93bbb2516271c47adf4302952b756c3a392198e3293ae109c0033bf 0x10136f37b0cf781fa6f9a258fa2acd1544e07988d17f6461d8f64fb53e1af6b6 (0x6a1e6066a6775767b8822950e144bbd8a5ad56e51886fd2a39b80e68b0ceccb0) (0x645b67d2007db51a38aa2e00f16adc865017209e466d7f97b0b265141806d78) (-0x7574d3ec9beb679b1649e7ed2d4893c2438b36f1dc92341744d603771670787c);
  Dbl 0 0x4d2f4e46bc3e515403efebd7509ec87428d0f9b583915aa63c3aab7744797662 0x1b33be68cba0f802e13acd6fd94afab44240bc643051237277fdb2a66d880ad0 (-0x612bba08dcd03bf76b78d3c692b21170eae4ffda04a04230cd9d5264375f6666) (-0x7014575712e2fae6c667a17eaf987ae55a4e82adcf8476886c2de3bbce137a2) (-0x6da72b1f8137af7471398114f72d1cab51813eae8707edce88621ee7bb76a195);
  Dbl 0 0x4915f5986f5002eff8830af38e2f03d288f679f8dd71418a1be85c8139c1e1bb 0x4a9cd49023d347ec825d5bea691a68f1588d03fd1fdc1013a7a6aea2b9c5955c (-0x2d01ae27e1c746ca863dc08e1e205bd0ddc3cd096f645df432d1febc2002aea1) (0x4f30b93118eec9007921c0c92f5b040c8e7af6244a648b33454d44d7b7a88ef) (-0x63cdd4c9092051707b4c1e95bea36e28b3cfe55d2c3ae9b92f1f2307be657f38);
  Add 0 95 0x40963b51f84fecd419abe73f9c5d932363acef816f0494e94936a4bb46cf7ac9 0x33eaedc858f510b117edbbe826db3dfb5c0610ddb14ca317fc0bc309657c441e 0x2cb4b2ea5c58f0225e363e3fc92aa58ca9233b8e91ccd85836fe0c053b1fcf01 0x1d8b77a7268bfe819797b2eead77bee9e748497128b755a3be606581b6bbaacd 0xe78fb185dfa2ce048fc93f19b65049b678e3af2154be6efe80cded6d075f1cb 0x1ab919d57e533a52b6ecead63077492b3c705777112510e3b97b1a2f6819fbfc (-0x166b7d943bebf6c3225ed2058597c433fbac4db26764bbaaf1e747cd1b47d58e) (-0x742de0a77801460c2cf25a48fb0088b0ca628458134b660b5b849afc6c502e4a);
  Dbl 0 0xc0059fa0a591eb35763dfc5b69076892ec37f90c6c5842356e154932d026887 0x39c9bb8764238bb06417e21d09c4658235c3d42f23d541d14e255b52dab64bf5 (-0xcbb6c4f061c8e949d0179f6d39386b83571544ffcd247a1a7a8a8c08271ed80) (-0x37d61f20308d41effa7d803f7a323d52374ae670876448ac81bb145d2a5b7337) (-0x44ed6dc974a619f13a8e852566b92c64630b8ee251570c0c3d9f4690236e2a3a);
  Dbl 0 0x1d401ebd7c7cc215018ed0979a12c86ad5bfd643d1cfc1ce1f805d5ffb7f9301 0x5b319aa9e81717ee5a9f7501865a694c485d88bd89cfea96ef57c05efd213fa4 (0x1b9053486dcaa19a440d3629854704588f4d72d8146a03c2adefa786f9dd3e9b) (-0x66acce3af905188b8dbb1b4b823fafe41777e44b649b0c9b5d786818a7492b9) (-0x2f583b69a2360bb6278095e3dfc09b931f17e1cf0153a0e4c512e7b6e7053a36);
  Dbl 0 0x2efee7e2d47976fe78c99c450f77fc9eb65683829ed3e87427cfd0340e86b4d6 0x4993142666f0b16b073bc1c5f4e5448fcd8d49ea4a45ec79b7b4243960d8d0a6 (0x405b334e40574a12eec04507a7ea0cf8fffa2c5a4438c8036a3624bd01489715) (-0x17a662b5c9ace81fda9a602b8723a8108e604b580c237b1232a4dadd4ccf7c4c) (-0x72231dc8fafb1017d5d8e0eb17fd664ff41d0ba97c47801d3bf2e72b7a5299e1);
  Dbl 0 0x65fc1a4de801ea1bbb274389258b9a3382437508e0c2cffbd32272f0d265134f 0x7646c7c457fbe859222cfd3695cb80206223a3b9e47042f7a132aaacc7d709b (0x1ba49ee111d102a9bca573b8e3c69a6c17929fbf7f9f02dfd7e9b878f23dd860) (-0x11323887c8baafcfb0796c1a0c3141aeef51d8b04bb7a9f4c8a9f0116f8ab7e8) (-0x44d2c0ed8287752bcf5975013b1d700907d24c27fdbac8bea61ae631cedbb772);
  Add 0 104 0x6f84a0e5b78542f8736256ddf304fd0e991ce85b059a6003b6c2ca3232722428 0x64915652916e8da7bbc634c77842ad499c0799a2f28aa441173d31a7fd7e468b 0x37378906e5958cbdfb720e1290023b3df5a09d3148a3cda899c4733728766942 0x6021e20d741c4b8b26c4e6c5398246f824214efefcbe0c362cf67e9b3267457 0x2a93e774fea228b1eb33a0e084139697f6eaa94b7e605a9f56b147cdfaab214 0x296fdf90f6b656d403b9fe1988c18b9072e85e03ab9bee324d7bd0d6a2dffe31 (-0x354dbe503467ec88a289b17e85581b04670c82e0ca74d6105be03de38c7caac9) (-0x5b843543cd04378a742632de8a76da088c31b0c3e263a4562804f44dd432740b);
  Dbl 0 0x10d05193972860e771f7df29d9b3bd80cc59bd5fd0ee6712b50d391864bc6b3c 0x30734606ba071fd15dff52a4b2d3bac560ec00fca423c1aafbc593f4e7d34440 (-0x14087f9de1e73fdeca9f64420ce885bd75915a6132937810405909212a3da134) (-0xbd2d267017e0742f7ecc3c52453f005b297c86822b297b68dc577d157341a2e4) (-0xceee0ba5338bec6d0565f51372b93a56b42a847ce84d5f00bf7d13d5d51f9c79);
  Dbl 0 0x1edc74dcfc76fdea475214624cb6bf00b035611cdc0651d61e7430ccf7dc8a57 0xfd7cf9daf6a5a02f23022e13f4396090824b432f442e0a0c536dc10115a0822 (0x11cf756c20017798cd8c9a2195c80a31c97f1d002654c9123c8d9de56ff3cda6) (-0xa9f2d93b320696c1ee2f38e943b5fc294ecca15e87e8c1eb61e66d253046cda) (-0x187316c3081035ee4964168930a7e6758f9f72415e2ba43e86a71c17563727a0);
  Dbl 0 0x6ac76d01257b509dd6257f248f3d49ef5c8935361df4517ada41917ed0a42d4b 0x22fbc793e0a8582b24a5b85a0d143451c94eb531d1b18af7abf52f475fb16a27 (-0x60ce57899ae150d4f03c7cb236a31bd608fa4e2fe4ff0b2c700a65c83e5faaf) (0x3ae953f3de8e60906ac36f96615b18586762668d2b10a556e1ede6c6a9e1015a) (-0x2071f18d18bd605e3d1fdb9ef39019109c5191411ccaa719e94e82490d7a7975);
  Dbl 0 0x568098fcd8636f304695a28089c614fca13c14df7b2ca1da68ebdf35855b5c64 0x134ff94642beb26a32dff790c0ac1c429922503ef32019845dfde889522d285c (-0x57cb7aec9cf457c0c3c4a760b424992a4f822ad292ede49da383b03e1e2691f6) (0x71b87ca3e4a0594b6869b4a0eea910bfa35006d5535998a65b1e4434795581e) (-0x7ce2285ade2120c1e91bbb1bd5fdaa1482228773a07c8cba799352de9d1adeba);
  Dbl 0 0x23897d88ed37b903242e52f30b4093a8e695f4bb46b21d151ecebd7fc50fa83c 0x288b93d1c700b7de9321a68f099e38cc1820baf7e7c7ef180a5f8dd77ebe9bdc (-0x3d540a0d3d816f92539383080416c7c4defcebb5bfb4ecae64ef01f59808d504) (-0x1843befc118e0ba397245aac38aa39691ce642d717164eeccfdd44b3276602f0) (-0x48f5fc65eb31eaa4cbda0a754bbab0227085949c6b0029690eb0d670325983d8);
  Dbl 0 0x5d7360765714aba7a73a5560ee5e5e18ef7463bef916a2a4b9351c1110ff2367 0x5eff2e7756bc3ad9916c512e641719d8ce08acc8a91f0badd2f3e07083ff24 (0x3496adfa55341618720c2e84ffa1ccaf6952ee37483c57162e784ff19e78723) (-0xcbb5b5a9070a2d52f88592346064bb3702abe4be2a9320f0d025bfa5f3cf635) (-0x191f4bd206416c2286db2beb7cbafec4e4bbffd412be7196ef738893d4b852ec);
  Dbl 0 0x5803c705966ea4ccb5d3f9361f543f3448f93a397d2b545b56aceb8970613f78 0x29ed9724ee1601c79878add40155d6ff0c749125c79cb6905d3e9bd30ec1dee5 (-0x4b5481eae697f88c39f663788e9decde0b4be3df97bcbee7024d5c16d34c93e2) (0x2c7fff5227ac43a0425e4165410ff59aa6ce39408fd6d0f9f569cd9043df6c80) (-0x60d0f20414cd5a1160e077a3bcbe1e737195b8f38e0ea6aa2ccd0e768ab6f51c);
  Dbl 0 0x50619f8fc325780ffe6b5484d551007233908fa4f225c4cbbac82ef02eb7803e 0x277af688f1d2faf7e29528442a7ee8f2211b83e5bcf4e0a4a1f5cd5a14415a7 (-0x33a87684da543a99b5fbcd433c35738a5933d658a6969551735b3dae903d9659) (-0x364e3f7d28b3fc917764c34e462b266fe9af262a97a23c68ed7686b48f117e14) (-0x52461a5c53df52988fe34a07c214f7485131f10c96ae1ddbbb9629322b6337a9);
  Add 0 121 0x4df3abbf9cd84bc91010d8d8763593c7534379e6286d2d8b9baa5a4fcd96042 0x719e2b3d156c69ab3bef9319068e140a1035363ac5b1d013d54fe51439092335 0x10fad88452499ab481dc41124226030d22be56ac167b4d67b8981f58b7ae03bc 0x217087ab50d2e4a188389da72b31fe39880bb33746c6704fbb6d4638449b78e 0x29f49febaf70c02329f64939e4c0f862cf31dba8e9dde5addb3cb50ea78dd993 0x19c3c9861cca35873d0164372fc8c6d49795043880b791dae57d5f7f676972d2 (-0x435270f071ae1d00548ed6c359aa8e19d4c4f032c4f0e715935ea6cf5973aba8) (-0x30f5838c85ae48751dc36a22f901a483d08f32cfbfe09f4fc6ce88c72855532b);
  Dbl 0 0xd54adeb595520c705da63f828c00c72095a26bf29d14d476837b29152a6aff7 0x2a045bc0f14fbe4104fa48f0fd20771efa447b6fd664e625a7657d7cc7e45f38 (0x6f260e871a750b172446f163993197a82ca90b9c4c79e92875d837e1469d5727) (0x384a4ccbe94ac87c918c0910596a7866319117532be33c59a5576c0856116e) (-0x8e59d947f9395491af11edfb4c40407a8af8112561aa945658de7d26ccb5fa9d);
  Dbl 0 0x10b9bc5d58e59fc828b7b3f6977b91105100458b6976257e259801663fcfb9fe 0x1d1b1f0b6a0a3c9c049b5d76e47f784a5db074953fa6ea039c5f6156bd830588 (0xdb219fbcfdcbf3ac1da869d42c86c6fa7c3358926fe34578ce18c41e19cc40f) (0x66b3e40c88707c865cf306d9bda8f0a51937c0e68832716a36eb6e4f8ae0230) (-0x2cbf72a5422bfecea21cb85a2936f0dcf138da0ad0d745651aa6c7e5d9714081);
  Dbl 0 0x28be7a527249ad974f5052eb01fd63156ba2039c67fc925176f4710f62f8a451 0x5cbc32dcf80ac5975c2aeb033097975213c3d05cee132434f3f75d0acd065880 (0x4e4fead82cde2a54dc2cd6589827088df82ec381556926b2a8882e05a558206) (-0x379c05933f1ea8c1a8e0dd238dcd23cbd496d68eca7c86ffab0194e4f6f82ca) (-0x14ece793fe7f6295456b9caae4db5ca3fc6ecc2def7fd97182d3b722cfccaa44);
  Dbl 0 0x2bd634ebc833e42718992068771585c9982b22d808a423386fec0864759c3e92 0x72a30c8f108eb3af79ab2d44561967003961117ae38cf3727d021226f0b440ac (0x3bdcbc10977ba48a46b390330d5b80de89d0e11e4f5e00f9774346c75f02aac7) (-0x2e95f1cb4249019ab73bb2b8620aa92011a7dc9f5c3fa4b6cf5b9d1cdd38c450) (-0x89242845e6976ab6e8e245849fbcbb1307471ec1ba9a9f900b650e31a4124a69);
  Dbl 0 0x6e65e6bc62ea5bf44c3b61f2cb116c773fe4c428340de07c076058d38b0504f9 0x4dbfb26d6d82c5ea05b4795b3988be448acc14e88865a9efce4cbb66d04068dd (0x60c899b4811fe572f5a28368a53bcf924626702f1a3e1ce09d231647db6dd32f) (-0x52c2a9e4dea1ee5956948898c0860064c913908d87bf6eb29a38acfa4f196fb) (-0xbb59b17ee931d6c9981ede2b3e499e47ab9d1e9bcd6bb9fc76d63c5db9fe2f23);
  Dbl 0 0x426c0dd2bd6b6c015229ba7750e0c20bd5675ef5da759752c78129a2945637af 0x3ce21940785bb75b72f6bf115d081c875c784097bddfec011f9ccb947bca4359 (-0x34fd04aa91caffb3575089418f8017275dbcf6f7bb3e720a3373265cc38cfad6) (-0x8bdc59af3cb7572b80296bfbaa2005c2181c1f5fb20aac6c44c695afc49c37b8) (-0xa4cef5357acdf7b21cc9692845a44ddfffc313f9ef68da40d1b4e79c3d382986);
  Dbl 0 0x19f0ceb1b7079f3a6345d482ba11af8fad92e6b88846616c8f901ef5025d9e6f 0x20eb6c27e8ae735a4bef8ac6d9e56b1177ecef03f0154a6a3df67f1f4d8523a0 (-0x6151c3fb2a8f7dc457a817f4c86fdd69e01998722e520e1ae72221a1c79a3bc) (-0x2f13b376a61dc9db04782cde871d5a9dad991f4cfcc410e261eb996b3fc7037a) (-0x62d383f87921db39843f7afc9739da86287a0947851859b3f6c8a02b6cea22d2);
  Dbl 0 0x4d7772cc23c0548c7f5d9788ae20c0176a7654661251a3c4999b540ab494a1c8 0x33379579a547d047ae61ab98c0495400c28c220100161a726a31f924c90c712f (0x38b1e25d582cc66cd8b18ea5b6311fba7357a4d91d368a7a0bac7abd5e46523) (0x3e479bb3af83df57ee09b640d22020b234f27128a82538e576fc4f77c0563a20) (-0x4211bfd507c20c6ad32b8a8233644c5d496da3c8899a25b83b913ef6fdc8ea47);
  Dbl 0 0x4c9b11eacf7fc4a75c117874c7630d1f0bba90c6655dd2ab8aef76165429260e 0x78b535c0a95817d60977aeaad2835d11a7c4fba580f75c56a8ea19042004fd8 (-0x1d233d36b14b01aa21f42f2f17709aff99bb7e771d0f17f9b06fdb361e7b0b97) (-0x3ae86a19759a227fdecdda618b8fc6a83ecd485cccfe6f3b7f8d1052102593e0) (-0x4b552fe143e563746c6b68683311b7f7658fdf2c170499af637f15a0043ca471);
  Dbl 0 0xae6410afa5ce3c9c5a455751313bfeb63c0d907480d3713874d4bcc9d1490ba 0x6aa867d74b940da04f898d2b2679c71c4245e543ffd0aa91c082310183e47ec8 (-0x32215c7590b400280e8ab24a45a2dd0f8c1a86675214a22dc6f9b9efc17db56d) (-0x5c56d456af48be06144df6a725b1942527190cc31aefb6fc9b8985fba2b0e56) (-0x5c34832b699f2bb1ee63b84e546ca3a062d41afff9d063903329ee118487a57c);
  Dbl 0 0x1f5020fa20c9f5e63ccac72b910d194fb3dffc000da413538a4e7de35994607 0x1cd99ad8b8db293556148bdea7cc548e856c82265feca02916ac50ff873708fe (0x611a9ab624c1c43277ed6d50ace72515bcd90ccbfb9f8150c407ee477237f0e6) (-0x1374c3d28ca1b9241021b34f95ffeb069de39bb12b16f36cd4700815226e1926) (-0x6bfddb8723ce12c3d6bd4a4d1652cb5ff8add33aeecdd2fe90c3dc415b1d8efc);
  Dbl 0 0x47fbae84e6b5018548c4c59d42f69e023f36165d68ebc1449ac6ac5f4fda6ee5 0x719dd1e7f9bb2317df1c9c011bd625f475b7e8c7d62c0a881cb18acb2eac090b (0x725879dc079fad43b7b8398cbbd8b8c71c98108319ef2d0ab6e18d76a0b0736) (0x1ca44393b84e851d764d8bcc7fd5567f4a01ed13d93801a90e2a206280609c8d) (-0x35f51b4c578cfd0c2036ba395e592ef637cd10b8e4ec9034a533ae0901f029de);
  Add 0 122 0x4c3744a5e0ec00a8716d951f9301f35b266b41cbaebea5b250d73ffe6882cddd 0x2b146182f2ebd759b2b80302898d639e4557c7c540a7b60e2c83cde321fa9d34 0x2c08084ca9712c3263ecae4d10c1fb7b0a6312e94f740c310a2e0c5e2cfc1465 0x2cfd48365a9a0047c015001c8999db4e6419eb0acc3fb945a6f635502ca3f0f6 0x616a929f215deba697186e1109a6135f930302c543ae4265d0e6dbbf94beb9b2 0x18103bab4baae58a452c981d197f6f3fa088e6f017613575143705a3dc43de09 (-0x43eb01c3d055019b787390e2758247e35b72da6fc96219e7f471e5445aed33ec) (-0x6a06663a4b8a85ce40026e916af6941de4f950c8fae5e0a550a322bb89df57fd);
  Dbl 0 0x4d99ed2c7daf93d4defdaaacb680283d939c8575acb4f69123e894535717db99 0x1444f6f423801e4260b6412239a60f86839746bd3226ff5c5a3404b08b351a1e (-0x2219466648b82e971f041a706083e8bd1a4ab558e44e8387922c9fcdd7e08d52) (-0x1dc9a594616b876f9f3bd3c93f059e61ddcfd711e86b833dbd7099d8c405aad7) (-0x4921865bfbe6ad5aea057391198059540f784f77aac450e8a67bd2ea73e65e0b);
  Dbl 0 0x6016efa4184c63f554be1fd95b761f03f53f9e66c40b7e0fa3f065e9a7dd2008 0x14a0df833c1bde728d80efd730034d0fdcd942f7b34dc22eaaa5bc1a9636f2e6 (-0x3066cb280bb059a31a50cfe2dacc5cdb8f841749a4f6de917908b68424239151) (-0x1b0b66fb82029a02be01af64d69ba5f58365c6b354ba620f9942d05957e7b0bc) (-0x37825ad23ca73d06774f2b5842fdb37840f6ff30da13478ab893d6b2fa871b01);
  Add 0 137 0x2896351708a97ef300589ecfe80b6bd73a93c9cacdfd8426b7ac5050e3fc4381 0x1cc7ef3c4658f25e2c3118da427285508c5418bb4851d7396c6e2e03d9fc55cf 0x144c50404df9decb7d731c1d6b7bb1788b34cab4457df802fc453aa366acfd3a 0x1178dd375790ba8723d59ce2c5c5bccc366530e67e777abbf98b41c8984c0dd4 0xbcda7894dd5439417772614392230f7633239f3a1757a48a09263f1c81ce6d6 0x205940d757bde21c31e25e36aefd02d2d4ea6f8fefe5a64df2dbbde1719b1b3c (-0x42dbb4798be3ac71a3a36f2171020bc2f749e0910ea54bab305c897ff6b0d8f1) (-0x3329c3b029e6be57f30f7bcba0964abafd3bfd6a8183f0ae4dc6f310e1b8b3e1);
  Dbl 0 0x31646286764df48ceab3f092e0bce27b3259967597ae396ca3009985da1b8f42 0x6dd64210b5813168963f0bdb8acd311d70111c2e26839eb660ae97e10982c4a (-0x7106e015a4788b17c483f0439feed46132d2eebf20ec47844d7c87e3171ceeb) (-0x5f4e45a8f25f4099667b917bd4753cbb2ed4cc641a62c5b50baaa050b095248) (-0x1753ef14f26c5bbcb70a510538ebc3ea473d9a1008b540264e7f26d0db8b377c);
  Dbl 0 0x68b5881f61ee15ff0013b18319cedc4badb28d5a2ddee148a63e32032dd92a77 0x3aa7b3bd6a95da1f2903b2c4ef39a40e40c20d4e6193bea8b1e7283a30e55e09 (-0x14a32b23769a091884a0d0794df905c84a83e71500a09151fd7cdeb8a39e1f60) (0xf3fe5ee1b4fcefae0f10b26904ce0b5a23c3ce813c3c5095167a624d26c4818) (-0x21450290860240fbe4286f5846c0ca8734a17583021f9580da740bdfc765ac16);
  Dbl 0 0x43062c3e7e1ac1ccb0e4ee7bfd1c30b5887925ba3c7201d669424cf71cea9b0e 0x5df0e6325126e2367dfac82bf41eb7dbfcede3f6849a2a0925a326dc3a8f5b4f (-0x40e605e72775b9be54b10b9da27adf8d62d07094ce2e1a5a415de24173c0a83f) (-0x39a2e70205722fd190c58e109614298670405a9d319a170128f71fce067b29ec) (-0xbffab4fa507a776c2bd23560d67bb3119951c1fb5c8212bd7099eb8c9a15f075);
  Dbl 0 0xb8971704f70e98f5a0eaab57d90542dc15c890bcc447f02124aee7a151759dd 0x27ba6f69243e491d715eb00ddf6a9369e49d8b11fa1ec7180ffa9ceb7df3fed8 (0x255fb13b0e1664b8600e21f3be27704e589705654b8692d5fe70f2243aa5659f) (-0x62df055755cc53c3f07e185ce569f0caa75eacec11e3571f845ef8449ecb125e) (-0x94759d2125726b140af36a0158ab7c46880c52bd182c4cbd7aba5994b3c0fbc5);
  Dbl 0 0x391b6094b7ee6f00f30631adc94b66fba46aae75d0e24f84c99bdbb1666b0bef 0x4131d099e2d55b1afbb875946585c775ce33fe5d1b16c262d54741417836bb3b (0xc7774bcc913f3036aa7b0cecbc09bab0c16ee73f951a071df4b83d51ccb4af9) (-0x7419768705f9415755d7590e5b5a99d75ed8ba6653e7378a6914f655ff134e) (-0x1745b4b043b9f10a3c6e44483be98b4fdc1ad283b53218a44200ac63127cc59d);
  Dbl 0 0x3f6f08fd14614f3cfec353fa9b93fa46a013ee22af6c706d740cf5230c082fbb 0x4fd69812698b5649f76556e8a1d65361864be602c672f80790e9dd3c70e2393e (0x88842b33aad396e6f22ff568e18dd5137d3a4aee3dcf0ca8808816c73ec6375) (-0x3d8723577799723eba3035985fc7d4c008a784e1d1a84c90801e10f4e55719f9) (-0x443234d14fd414b8984c483c0cc91b3d5597df232796b748c2db4905ef28bbf8);
  Dbl 0 0x6c57aa5a233c34000f6c3dd61fb874256f3b496cd38206c62578c3bfc5f0422e 0x62e2fb9abf609574e10d36a149762725466560762243ad04762e2e81ae850c13 (0x14461884a85474258982226695300209037b9c740e9331e67cc1184bac2f3caa) (-0x3ac834c506eea14ee4b04053ebde2a72179fe6ee290fd86c628168754b2fe5e6) (-0x73c9ae821011867b0eb51f6eabfdb67329d58614119a493a3c36ac0e865440ca);
  Dbl 0 0x8fbed646a50ab887bc98ebc2cdb56877b4b3f687900f73a0d071e510860e12e 0x42ff1e2cd452220d0649f2744900f8b4b2dee7027b1251c74828319c2eec9c1a (-0x10e71ed53e91c1041440416c124453162a14a1945639ff9c2693e8133145a895) (-0xb32a2db430ff541966764b9e668dab79a5a672b6241e7194fb0f521d9a57b968) (-0xe3dd13718b7d5157ffaa82853a65245c2e1d7fcda08e5a57349ac0777373b65d);
  Dbl 0 0x22b3177b65096926197dd265bef87f78adfbbf821d901bc13db1c2aab49d2f20 0x2c8df02135886bfdfff919cca2e95014f277ac350295eb8426b35af59e1b1712 (0x2605a03c9e0db795fe90cbbe74726cee5c8170cf322c371b82f1989341fef400) (0xe49459252369d9f708e595d6ca077aa2955050f83ad320311b4449dbde51ea8) (-0x47175a3bdc06f46825b24f6055b7a4189d565315161b85f74de0b68b33456384);
  Add 0 130 0x5811ac672fcff36847d005bc5e66d5c65ffc2f86b0249f35e3de8b3a13ba1624 0x5b04c36d7e09e208cab195c83e48649a038c5a59b8219b8a36c3270d2931aa74 0x17700ae3171625f916e65037408a5246122c92a1fb4256fa0b760f7c884dc917 0x13929181591cfbd5e78592bd3d5f67dd014ecb6e0920d17cf9de8f3365dca39d 0x37fecf934004d3c1849888307235007afce55bf9719ba6a0a8a5c1e386c84980 0x105b6905fb39f42fc90197bd8605ba39a1116b50df5e86c361b2d9d905bbcd96 (-0x29905467023165608db3f29cbed2acbefc3098aede7afc26f6050df06e182afe) (-0x2ee904b1bb4a4063da26a3d42cd2b9e2bd81de04c5bac5609a8d7100946152d0);
  Dbl 0 0x67ce75f4e6f711ed9189a648a636487f67dc208a5a91c87c0889ec91ab5f965e 0x6de69c1652701269fb209ae01797f7f42e27311a0ba6527ba315c24a21784e0d (0x48e791a0e6c25fe684ca4a7eca5a1890b1cacc576dec61508c597e210233005) (-0x3672db49dbf66642980eb6e3b348814a967956d4803365e57639a610f0fabf76) (-0xe3216ebf6754e9d32cca0a70090144a59e0be3daf87c93f5aaee6ee3dbe2b0c5);
  Add 0 149 0x61f1949fea8457c0db91a9d2bb1f794ac1c23ef310505bfaa445cc5cddf9bb2d 0x686cac43c269380db1fd9c465dbb9e5b8805537ae7d16af50847c901beb2c 0x15eda045852696a6ab9c07f71ed56a760bd383f7680d8ba85485948297c3a88e 0x5d15d36e3c74fb462b50f489d2e4b5b64212a4dcabfd7de9638a38a3b49abdd9 0xddb81cd44211c3260b1d9993db925be5d51e3215631500c3cec7f53eabf0506 0x1a6c9e28eda7eabaa170ad07d13a2f093d7f2890486fe7ea167290fbc650720b (-0x365f7e2f605a54030688b923062fe4b86972ffe9c5a246909bfb9ed16826c768) (-0x73073c0e637aa7145383b3c045d8eb5aecadda5499f008816559f7b4694c1e03);
  Dbl 0 0x5f69aff3048c028c666fc70733d5c5e348ef0cea7912ebbe7ef9861cf4a872ce 0x1683f9a9ad720f4b597c22b8c0669283c6fc8cd8bef0e4fa52d2a6d9cfe6e614 (-0x52bfc37e70392002727a53334e1a04aadcfe7bdac2c3fdffd6d34790a7c3feda) (0xcd1eb45301789eba363ade05f21983b8e0c0c4416d63dbd0fa4595221eb5456) (-0x55c8d61d21256ef61b1f16d9808e6858b4ae86d9ded43a624c1453aee2475965);
  Dbl 0 0x627b96d857406ad54adecae9096c99486d05de9ed15291890ca7fea814168486 0x709b0ca55cf532ce16e1df21ed355e3f1ee413ef25ccf67d4d801f90f4fcc357 (-0x4a27ab948ac8bef5ab7119bbdf07eec2c6d6889669b045e8d5eb6461e375d4c1) (0x2ff0e794f0fcd280adacf68771497849a20abc8e42f3d9f5a1125708c700d59e) (-0xb418022dd5ad7a0d58801c90b7e9b678e24eadfc8a571092fff1bb86548a3791);
  Dbl 0 0x57d866256ea888c73711f3eac5a7a12399c474ebdea8032e3564394d9ff4ea74 0x3e53707654090f2912a25e2b1054f57eb54ec37f858b6b569de7f0224551c21e (0x19b738831174d5e6e6aedbc1c9251eb8436424f5e6b7a14d3189a6a43edf1175) (-0x8da2199375be43951ecd679cb7df1ec8b49561b3b83df48ac395c5a5434b0ab4) (-0xe44b23092ab3c08ca98b3790c0422fb0c93244b73d80a422c5b2461355e24889);
  Dbl 0 0x61c62f4c0175c4fa97509b46947302d8d8cc51a0163ee2d4876a3f6fe5f0d5ba 0x2e38ea07f78acc8ffe91f764ee7387fbdb0646ba8fd87e8e433e3cb4b8118adc (-0x210eaa4ac163be1c7e8acf998cd424e7d319ec3d60ee82c02489c7455a5ecd22) (-0x26f817b12b016ff9e112934cbb36049279d152164e2ee6751c6cd5f541557d34) (-0x7e4de13ece6f31bec8787dbf164e6356b8f64d158b0627b8da18a25dec400944);
  Dbl 0 0x107dc89b244297d220caf99f2289d1c5af8ea5a933dc49cca8258394c3821edc 0x2abeb150601e100eed27b5c7e6b7c9c3c05cbd1c59d03f72cabd7f7099998886 (-0x40088badad7e6d2e2d95a8b8be30598e6913a83b93edaf2ff6d5c83128cb72a3) (-0x41182a304d31863e4229f07332588ebe7fc7a7c094cc263b027dd2362a9872cc) (-0x86429ce1cfae2f6810c38346d4969a73445be820371822ca40759d3819f92202);
  Dbl 0 0x61f516fd9a235c5da8b8c5ca1f7f5d823af5baeea66a78e361be47c8662e4771 0x1eaf47b6966462e714a7a958ad45e9a7fe20e3cf60ceb808af50256bb4d9ac44 (0xd6a33c762ef707237cf64ee8e968e10ac82c976222a82bc6d0365f33fa41c03) (0x1fce23bcd7008efda102e5dbb406926f89b59fd8648699b4ff0b0495a06c9d31) (-0x1fe10d24f079d2209df32fd0ba3849773a2ad807a6811e57b44515479b283f30);
  Dbl 0 0x5030f5f3c75ec5c365d156ce85a92e906474e7f17d7d2a21e7261d79048e327b 0x1b2049eae59c34c7214b368a89dc78fec38a40a0fab1c9a15b4c060aca68f8e3 (-0x4aa681cb2038aa688df87407b6fb60f92c3829d6e7bc71558d5de23f12bbd204) (-0xe993a796c14f0f847015cb389d1111254bb9be35a998292e3e7d59dfd8ab187) (-0x677f4112cfc75796c6eb32bd751a4d77a87d6d58da825bde8ec8fd7c79d8a164);
  Dbl 0 0x6f35a63f203e84e1630793257191a46f611c5d83326917682c65bf8bb2ef4040 0x5bdb42aca32b7a9a935d31ef4ab92b2904129cd31276a94a3bf5bf04248cf0d3 (-0x311fa059dbe972674feda46304a2193dbd6aa177b193ce822bdba0e97e41265e) (-0x10dcf86c5b89c1a303e310628102f64b5f83ca10e7a065cea717a7857ed832a2) (-0x4ee2ff0739532bc5f8e9b59773f67365030b62818cad9b8ee0434373225a7bc6);
  Dbl 0 0x23b85dc9f0a6faeec1869d57acec69907d944c69db32b35e38b3050f35f5a40d 0x21fb13aa096d01c8922a6cb17e700ef1d2d3c6b7585ed742c96f89e1a76f46ef (-0x21e65d08401929f0f8547a352506a58dba82cabd934bcc1941df471214c06e7a) (-0xa851d394905ddc753a83e32745e6391f4166d9008a72a4f234946333c0c0bc79) (-0xbafef347610b29ad75e8cfed1bc65808b38054df1ceeb2cb1a98c0567412d278);
  Dbl 0 0x6427587c7789210c0070f5aa672d0a837ddd02b8a9aa4e50ea6e419a44b9d990 0x4fb120bdeb250f025385985adeb58abb07607ff5492ece7221838e68fc9ac721 (-0x10bba05b55df62f1f0503d1b3bfa1339549e1101b8bb1dbf78d1bc52f637248) (0x1840757643144335ca8b0b16914c3eb928736f065fc6c319f2ceba47a98d7fba) (-0x38ed0aecec60ff579f843c5a748ea3dd9252895d0875b4a8b6744bb42ae5e248);
  Dbl 0 0x676f0f07491a01c40ac155bc119a4c46304d5b21835efd8e989486b5a08d61f9 0x18caa3004d33ae8510dc35dc23dbca695f1d2d08d3da6fe71114e4df111b0b1b (-0x1fbe513160a55aa17e10934acff3053aa7627cad43860e372332905341c7871a) (-0x78bb4755429779ca57ffe7d826dbf6959c7ecd45dc649b8e542a599920cefb9d) (-0x915fb1fe2e64d3dfc98059a5b15e00b9c976d1a139049424bd0c8d2d970597a4);
  Add 0 156 0x4d9d740aa3bf0ff2a2291a989232d48b8557b155317c6386865a577f63f92da0 0x1b50da366d8c71ddb187bbdecbece513488c188c8d10d047e833b7d1f072c2d9 0x6627cb92c22f86cb41e7b41e234da2a1bc079e43843db5469ad8b5c9076c7b6c 0x12bcbf0976ba47a8ec86669425908f160f8fbb0a006b170d4bfe6f602b866681 0x61356094d58279a0c480d350d22e4b108a0b17bfd5a71b7faf6bc0297d47d32 0xe05061637d66782958fbc5c5a5740039eb8763492e77953021f297cc4d997a9 (-0x3c2e1ed23c7f3b67741884b2b683cf74c26d8d081edd1038aa477882588d431c) (-0x87d7ced12ebebc629890b9978fed3ed9bc4a4c4042671ba55e71eb471804164c);
  Dbl 0 0x56ebcb7ad58722396c0602056b45e5fa242c6ea148ae9558e7f74c986eae4487 0x1b2a6967211a4a8cfd2192c9501aea223bf4e764f7af38a6d50bcc9602999012 (-0x2d87126dee467fd39ee1df6fe025493226bb5c3a1fbe8e8f88900d32df544bb7) (0x7a634e572ebb7ecaa650c2310f601606048c1cc158f325f195eeeca90d27458) (-0x4838e630cfac0caa307e6f8d6e286a6c4ece774b8b51743133d4a0598683619d);
  Dbl 0 0x72d0cb8b444011426c381e86b9a7aaeb6c58e68d50e96de495317aad18886748 0x46925a9c55f166faf02ffb32df760a0d5f3b86ab59d93ea0761aa828556f24db (-0x3ace600a354159ce1ed13c321026479afc43b0222825d6e625898a964e2f7d18) (0x84d0f5516d67872680142042c965f114cd5082bacde8ca5497ad22c80188e1c) (-0x65adc9b66b9c938e07f5ee03af8201a2cdb330472d224d1ee3737dad66c98c88);
  Dbl 0 0x1218fb3661d705376a0f10d52e0d3af96f6dedf6665b2f45e0d9aa25d8d9ce36 0x3d116cdaa7299ececc03f8a6fe36a049b03632fe5bf4823b27490219792c612f (-0x46c0ba4a1504ebe7c6a1565abb1d5bf65aaaf1922a8c37ab9d532620104a7274) (-0x81e2d082e814a0221a81019d15be4888ea745cb1fd622a18127dae45fc15ab72) (-0xbe16eaf0e4d052afc956c553319d3a3f8d235edc0de27e4de25e11b393b98b1e);
  Dbl 0 0x5b8c8603af665409e021e6face4d78a69b478e875c21e2430c464e31371d1e01 0x6811a189e8ef68c2fb814b4a51b4f7a73f976e469645351b8db0726d07b0d962 (0x1d58080eee79c7ce66fa73b09b9ece366b0e16371620e7dd39b6ca6cb82c0712) (0x9689cebed94940914b167d9613c52415211d5fd2c1205117d8fbedcc8771257) (-0x435d24028b4e15d17ef69b9b34a265675bccdf6927c9e542f244434976e642b7);
  Dbl 0 0x5603f64f16cc13b77e7272ee76567403a22f901d2cea0d0d6f6441721ec341ea 0x14f63cefe0d9c70a40684b4f55f04d301a6a962133632044f27a7243145cf263 (0x15204ea874c1e717e0f2afebd7afe5b89e219583c755c215dac2fc9a787d05a0) (-0x8f54245b3702afc485cfa38c4c0bef98b001c3e9541fb8a23d4d898ef8ffd246) (-0xaad8974ff284f0451bfdab1f9ad8b77b2c873846a4bff50b083cd839db3b4388);
  Dbl 0 0xc785b7dec79c879c5038c0e09e5676c4e765c8d3d58cfda1c5011537dbb47a0 0x4bdfe5f906c78403bd75f0af5e79fadb33a77fd2cc21b87b1fafb7150e69db4e (-0x3c07ddda85ed4d866d020931cb1f67b14ee2cbf80d3a930fa89dfe7ef1144214) (-0x1d8a533f3ff0649b23a149ffc8490aaa14be1c48d342c7f8378808727116485c) (-0x4d23881f8c21395d5618367cc0e37cc6526065e76126629148f19e2f911a396f);
  Dbl 0 0x435f28137deb86d1c8542d26ca6000707433a9cdd3ac9cc2d761640b4411d664 0xa915511834b4f20e373ba878a339e20876abc92e74d1acf9e4121da75c90fd7 (0x305176e4c16c6410dd9b0005800fc92237f58eeb7b1108c2ab780e80fcddbf49) (0xda72a1ece9bd0853b544ad20e7edc1034a249136ea1a416eb3b1312b0e03c8c) (-0x37b3f628e8171de83d796e3ac88fb6a784903ce83bdfe274495c56cd5b104463);
  Add 0 154 0xd24a4eb48d5af2fde93f485b6ed33f516c13bc5ed666b59431d65db8a587eea 0x53d83a3f1b4806da95804b1200eadb5ed6ab51a2ba656fb98eba46959d7d813b 0x3f5dcc92040459403c58cefc4b7f82193db6c99a3c2bde545cb0000202c66196 0x6ac7c9b7c4adf751e5d373f2dd924c28cca2e248793b70d0bc81e7e881180e3 0x21f5fbb1ffc7b1d720940ea61203e154090f9444fce30f5d63d25e62f8fb125 0x1cfcfdf1e989740989ccfb50253b701366d984682b96616bcf6b4bb61e652f0e (-0x27b7e299ac5e8be19108ee5189436023601edabbbf32ec50c63550311f01d8a0) (-0x977e092cc548050b83bce50954c926cfe37828af23377af079bc1a4181da3231);
  Dbl 0 0x2736d8d11a0f7dfbaea226306219c6e46111b2727419f8ac1fb22de76062c723 0x4048b8b35e2b911802304dec695e44da567f735ba18970e57c15b2905b9f476d (0x3b2671e07fd07ffecfb4cb15e0c0a0c5fa672bc106164bf87cd32460b5748643) (0x10d580dc30ec04eeedecaf95665cbb152f16794da1d75427b3f6d7d94bd9a6ba) (-0x78e452bb3705b4a526d9dafa9e92a6f928ea945ce437b65cea35bfdca3a8142d);
  Dbl 0 0x3f0bab4cf6b8cf4d9ccb571a221138f9a663ed64887539f1f7c4a1b35c0af6de 0x2c0a34976876e6a4d6d9249537eeb92e3570832b24ebd172b091155291073fe6 (0x1661bd6604bb2e22d7e9f9f30985a5a0ca2cb5f9f7162e6dc7137e4c56db0744) (0x8b4c4c627ac3fd60089805b213429c703299cfb3f1681e95fd21fee63159dfa) (-0x555f4886630d3ae9193f0aca746a62494bec216f1bcf64d2619a0f749f0cde0e);
  Dbl 0 0x2f9d565284c0b77fa0420edc994468ac519e726e200d72f599fadddc2a442a2b 0x2e6bac7981d8ffb133916f685006e52a2910cbd9221f722d3cfba2f7dddb2dbe (-0x118e54d9981d9cca2a9e4022cd1c517de98104e916cda92c02105399d62f272c) (-0x166f5bbda21832a00a99c962fce5c818451c3a4333a427b0796f66491937eb24) (-0x4bd7f03c8bbacbaf824f3362f54c6ba2f7d6d6fbec345b08793c0b209ea9e214);
  Add 0 168 0x15be1db19f3b7844240d67da1c4fa2d3a785a08d594ade58e5c52036cfdb1f3a 0x40c78484861495deb1eee3ad5ec6ec0ee74cb256ac52a803814fe15f0677f92f 0x2f06af64304e2bf9c1b380326881448354cafba5ef229b336790066dd05edbd8 0x23159a330dfbf443ca075e6327871e5b753ac5d737ec36862e1f684528d1e67b 0x2835ddca9392330392f10dacc69c1950106ac2a36a9cfaa92f3b3b9c6336af88 0x1c05b21dcd5ecb8fd25062290370204d3bdfff98f7752a065f19093aa8a24fd3 (-0x3d41a12422ffc1dcbcf1be156d6b048236a1eda0f650a5705ed17c865670269d) (-0x8f6afbe59194f925e1f3e19c5f12f655581d9ad69fa68f2b05e5ab29078a5e68);
  Dbl 0 0xd317aad12f44b39cb420b5aba9d575001c7cdc1636019a97b37f909a3746116 0x45d72194e5bf6c448db943dbf364c01d3e8bac2374116c2bb9fe1d9aa4834fdb (0x201ebb8cb5c01a64572e019f58b98e361ee525b1faec9d853f5e6a14aba6bdde) (-0xce534f10bbaccf760e0976615b06fe1eb945aa8ac4f3f84028eab8a958354a2) (-0x64a49477fdccc7901be9ce25118f9f0fd84e2bbe59a7a9d9aa4e928ac92e8e14);
  Dbl 0 0x3f97f324d99ac7c34ff346d3c27bf5b28607c828f7f3e97072ee860b3ca0e66d 0x2c32955676c9e046be7a6d55db669de1b768c284673e6818686dbee8f8b93f0f (0x2892cdc7295b20cce24ddc6ca47b754832a7464f529014c2516e90f4b4018900) (0x2cba0e2b65eb2ad9c02102291e1885a819194a94de3d9124c4af12241ad4b62d) (-0x55b5a748955a30d56b0bcd7e2f3b5d2fa8ba70553fa1489b6ef803e83f0918fa);
  Dbl 0 0x49fe1033ecf97c20197f7f72f79afde32078c8400e9b8045f3ffe0e346f86ac3 0x2313840bffffedc5c1e8f14d8ba7b65f90c4e718efb127c35b155c9a43660039 (-0x1208d6f488a07d2d42ea63f21af657bf4c272c949491f4bcad9d07417c79596c) (-0x2a68844cb037c251fe4df7a325577d628ce82c85d6e137f23827d8983369be1a) (-0x369e40def1b6da4010e8678c960cecc85ce1a54a2cd4797a0e5aef248aa1089c);
  Dbl 0 0x1de429d5b94c28738be34703f335b043d9636c3e2f0de60a93d47e0428a55831 0x65167490cb38581e6f2a9b7bca3e70f4f15c6978d2630f2fe94896d64fbed28f (-0x249d0c2a555136fb87681833fd42faeeef97bcf93b2cbe7b4c9acc44852b23fe) (-0x294cc766c8ccd023fbc6b99b2d36475373bc6e656c298eea0dfe5a382a015390) (-0x4597e5a290a9075271e209d1c80a02f6ed92cf5e2773e358b63ecf3e37389956);
  Dbl 0 0x2a914a803abde4e8f9eade900bbec626eebb16153724f3022c4a5e9dfc9657ca 0x15198a88756e065b982f0c732c042a51ef3ea8ca98e94b449b0fc604b954469c (0x50708f3648783a3e3e5e5a656e69f4c86705720e3696c9ac79a7974eab4bc778) (-0x15e75d6fa30ebe2ff4441b11a565583a419964a789faf52508f4737f7d72be6e) (-0x6ed61b03932aef5227c338c36f8951740b7f7fabd9a7937577a0421362ef80ea);
  Dbl 0 0x281ad87621b893fba94e10f3e6146dffb6c81b0d481906f9dee8be7a3dd98d11 0x2320a5f9bdd6433d8ec1c3cafaab6f57a5eb32980347f589097ddb7927ac29b1 (-0xbca3da4b4a5e9ca7f1cfb980bd476ae9e6ded85f989f633ff909d8557b24528) (0x11dc9a6dbdec2cb9c8956ec6daaaf734e7d9d4fd03d98bbb0747732a800ce3e4) (-0x30b00b39d9c2584684bdeedf02cf2e37236aeb3faffab0b150aef49e081d55a6);
  Add 0 180 0x5c213d35865a60cf5179bc384259eeb8a6868cccf317dea8a5f286b1e106728 0x6e0a20cbe85af56149ac47013d5b3480df36f4718121c36ee7ccd512f54cd743 0x878c86171b9e8105661b3782b710f7ecc85ccad156e08276443f8eec1b962b5 0x1dc0b67fbaa2ced5163801fff1e8994ee84c8f494a6c5e5bae6ff23e12d131f1 0xc51e3b353d00af6ece16a49a5167e8853b8e367e1cbd7c9025293ed4acc7faa 0x1f8e7ed0d8973d12319ff7e2791a16ffdca2ffe4428dc2f49f768e1d012198df (-0x291286d46373d491a05bd049dc1266750f16e73ed3cb75f172af1feb62f5cb95) (-0x2c463db2f6fce9db894fbe0596061254b0cdd18784b373d1bbccabf0470d71cd);
  Dbl 0 0x73505af489d1a956323b1931afb72b2a1d936d13e47a3689da821bdd4bf1099b 0x4dcdd58ef481bacd8a0c5e54f80b2201e1d4d16bb30d66517ca568cb64d7d89 (0x6829f687ea7068c999d118a6120588a129771463b03ee39f930618ce8910db1f) (0x540fa91becba26999386f53ea96ad9fc06b6483bbe7a5b64e19692e9aabaf27e) (-0x6cbde1ce971aabfefa985127c842130c1995def56114a6381b96fe6236014931);
  Dbl 0 0x8a71daafce9c9261ae5912c2d51d035bbd20e8a117787e60b23ff34f83979e7 0x5ec78e598c9d94a3448c05ff27d26b8762cbce1660cced3de2612f90ec81210 (-0x727fac612588659b3cb4312ddfdb7f62ff4edd51a2fd900aa407e5a7646ba7ef) (-0x923fa98377a779db6a5f2ecbae365b3382e7530c4320ff43c7bc17c6ab338f5) (-0x734597e36bb921593e9459715f6cb8fe9058327614fc972178df1c81729fe77a);
  Dbl 0 0x54551fa993e0405ba8ed0ff0435c2917f8666260c906fae3d7ae316ce12efc12 0x12d929acf5c8b8ea6922d8feae848343f9cba8eb9172844cfe7ec076e9c26a4a (-0x57d87716291bbc8d2eb1a0bfd74397a150de61e9ace3e26c4ea551b1fcbce0) (0x42c56573236a834d8f290c93b81980dbc518b0c056533bd91eb1fb6d301e20ee) (-0x1011c99670b39870e7f7274c07da31309e7072f13862720e471bb7088c5986f3);
  Dbl 0 0x52dc4e702dfdee73cc17ba12240b7f589373e11b4e9c31e6b099828a0e722590 0x1305d97870215eddfdbe0a7bd8d1cb1b5cb27abf5d2b7701489b707191ffa582 (-0x3a4896b9dfea3365ecbeef48d7fc47fa73175985757dd5d514982fc7caec28a8) (0x36dcadbf130a032d08c8ecd2cd7561b4eae579093ec2e11b0b00faa98c8bf618) (-0x534d96fe687103d981f6c3124c9bd1b743209e0060a39b6dbb1024ba67b0f934);
  Dbl 0 0x248959543bb9b2d4fca2b53433b7be7734a8642dd33285d3d70e5866630fac8c 0x31e1c1ea7ec546f43f5d8694dd5acd5abad701dc8dba742c8879ab428cb6a82 (-0x381a8a6d0dde6ae9424c78d65a2edd98aed1939a4df9d3172df75d939bdf3456) (-0x18681ec29957dd92139770b2ddea05821a7026260fc7ed0322ac323818317108) (-0x3e959d8ab60d65e1478fb1abce7e608d5a6232da1627187b7aec32637fc515b4);
  Dbl 0 0x2b5e29ff23b48322302bc799708df874d4734c2fec508a78c4cdee7cae96c6b0 0x58ea8201af3ffaeda6e0780a08a154a01ef583d1926e5c21a5f04702b8700d0f (-0xb6e61d77c8c087bb61bf6144547db37dac1f6fb8c284d10409c87a992965ebf) (0x11b73c438402413c2dc06b47c2eac2015d6df48fe2e3ea7e460259b4be1a6e0) (-0x11e5e6b38c88b27d43f11f125a5b2238d0cea61bc6738c2263e95e2fee4eba73);
  Dbl 0 0x833ef24b9a9fc2ce38a8a7e29f39b07c332ad0b83f3b195655c05bcc164db71 0x566f975d856d5c81fd7240108719aa644d1685f92d553096a4b9b504d91c3409 (0x33f96c20f702f8faadb6dc5f2d30ee32906dfab84dbfd0540c8917f5910c0387) (-0x3b0692698c019327b14509c1ff9d45b2255566ffd7625bc7c5e0bd807e03d8e6) (-0xa37304b7a8d07a2dfa1e70d03cfefd1f27642e648b9491783d575ea803913cf9);
  Dbl 0 0x3a87b095d3a7ccdd59839dd87cf522aa84fb526887c5340d3eade1bee1c3f5a8 0x45dac70049832f8e9c1fce1cf5d2eda6700096932a0e3fa57d526ef44fe06bf0 (0x3fddb1cf0ed859c5c305d2ec93092beb967dcc05ec848610dbf1d4598f8f87de) (0x2798a5b7736dab9210265ead861f28a8e177f8a8fdffab3bca21582f481083de) (-0x7ee21243763d105294aea3ce6dbaa6113b39c8f2d46eafaf8cd54972edb16732);
  Dbl 0 0x27375580123e95753925fbe18c9e22a96c4af93d9cc0f3b5658a34e84fc3298f 0x6f1c293b6a08b3f60741fa311400b8e83110922e2e86645e1512f3d1a1455cf0 (0xc8a96f0194b5c308e945b7c66d0ed3f874c5775fdbf8f66fedb577b159e77c8) (-0x23b996c407677c33b2dddd35ebfe951207d4b4913b39ebf5e0b0aa8f11403278) (-0xaa46041fd77087c3d9c94841e10ea8fe86a88239b22965f9a0519f8beae62de0);
  Add 0 183 0x344b64f3347ceb157d23483edf2ad51f7dad9d6769f4e866a2af10271311585a 0x13cf741acb8720d7bd262b04471935edcb6f04462626d2d696119bd1e7c0540b 0x1013db15a8e9ecb3092ca3bc18d8a148d825ef9580d070f89bf746a0b925a3c2 0x6b7638f979f548ba1636d4205548d6f483cee7f3ad587d60a16e4cff406ec2a8 0x479e5d62d82d866bc4d37b3579e0611f2d6ae9e849c89ab8d231ce776cec18c 0x214ce1c0504eb64c194a2f038854da575b616b2287695f9486319764b6286e66 (-0x2fcb3e5a1cb2a9141aacfae74647be7151681d143e498fee51fe006255e0886c) (-0x890eeda82e60fc45708d1875f3f6e94a26672cf0529947539c32bb8b20d0c310);
  Dbl 0 0x6f4e3c62c61658589fb38d83b5f67048313f5d80bf2d1d2fca084abad1084f59 0x6717fba2446e25852976f13e4ff9ed187ea1d0129c18b951f5bf51c16ceb1dc8 (-0x1434551127a3ea74288cb8ba211b26608c170e5f54166613ef7072d31f007765) (0x24118f6d39b818b045274fefa9ff48f6b3bca712db5307f8bab4610bfc53826e) (-0x4cefc1fea74490fafdc16adc243dcf2896dcb1530b29520eeafa9116d6593bdd);
  Dbl 0 0x707bbaeaf47127ce731bcdd07313e67ca418f9b3a21af3be63bb417798badbbb 0xc474f82e5e03d404a6a3e54873624a48c6ad62c3084d02773b99eb80501dcbb (-0xf2feeb9f8bd340ef1c87d9fd709576ff62b870368e806e2f1be5dbe63784c91) (-0x95834cebc7fec530655a3c775f25f625d85bbf6e850b114b9870a8463b867870) (-0xcbd6135eb70066ba1e616033d1a48ea0e9f5e8b4fd471073f9e6a60a71eccc5b);
  Dbl 0 0x4ad38b477f68a7f4ef573b252d8e5e7b18e0e94ddb6b5267e77d572f8a3d28a1 0x4d8579df74dff3d4aa646391a8427f2659b9596372f60c03611306a3a3f339c6 (-0x6bd717342b9951dfa0784c2889682b06bf4d0e768e8258e7f46a4c1636ce0881) (0x2098bacc0cd9b7818620e802ad898edbfb1706bfc0832bc77197b30cfef44bef) (-0xa8e5b9ab9895b0b0c93fc8f537fe16040731cab8cf36797ed822478fb3b6886c);
  Dbl 0 0x30db4781043d5e6c3b469863d80d8634e0669266c082e0a89e52497bc591f7ca 0x1fc366cfdef8ef830e26b0042cef26307a574e1a8df4bd560660af99cf2e593 (0x38aad5d6009fe51ad1335329214defe7807a994139dfe5b5ec64af8d774e312) (-0x50704cbd72b481453670b5db9b7c35f4c854ede66e22c6e5d83e0219a79e8722) (-0x64eef0771025fbcefb4539e8e205f6686856ac05e96c5a0da50f94d5d59b6042);
  Dbl 0 0x47c9570711d9aa342dab6e997c66d01aecb17181ac194839f8d5cfd735fc2420 0x6cb468a05694aad6a83db39a7b979f360e8087bb1e3ab99b70cd61e19a4873df (-0x148e55c380888bb9b7a83f320d25865da97678094e56e09bc6b4cc857d6db74a) (0xce8f724bc9e39405f00b8de4237912d6318d3fb496aa403d020868b5c00efe4) (-0x2ab508cd2b270e80b8c50f7a9aa8973406b14ebcbf2a1c54fd598fc9357839e0);
  Dbl 0 0x3b1c0f36e083a0aaa7ea061b176ed4c0081b999d2a92ba12a4641640696b904a 0x1d8edd371ecf049e3571520a5299444ce10597fc390035b0b341bc950b01611c (0x397a9027a241a607918bc3708f1d3aee4cd21f3b4a217d46f657752a23686e84) (-0x5c159d4b67e47ba885e90b4df4f96b33269f2033d15f72a56ed3f9e079514f1e) (-0xa7a83e5b7f696560395c931959d39f373972ea71b7cd766175fc798697988bb5);
  Add 0 187 0x8ff122275376e469d3c9930ea55f062d5f5d33ffa586ee220438e6ace5b75a4 0xfc38806f5fa45c9bf258ddd311e81f498b66d0523e21aeefdf67c099012e4b0 0x1e221e8b5b408ff25d3c320f3bf84fb9ac64cf5d5b081925e43cb897cd58a04e 0x754c5d07cbb542572bf5d4629cb110d8bfa78b17235ad864100cab1ec1e14b1 0x330e9761238c9ab501f65a4a463647b942f6db59639d958ffa46349dd5b615ab 0x104307c5da3f19d078ea615ab6284d4ace58c7be8cea80cc1acacad3567bd140 (-0x15b16923296ef41e93bf0ca2131811838e4833b26f18c74140f45a0833d7d434) (-0x338b9bec657b9fff66fdf73fcbef6d25a330e7e98a33386e73a273fc0737b2f8);
  Dbl 0 0x4ec249ff685f4ea442f6366997ef35dd331321fcbee978f577b34d53705b3486 0xb22fd3bb60a20b56b078f6fa89af9366216f044d99502205426e8d82c0aabe7 (0x1720592fcbcbee8099f1ae041d3269bc7932823a43e2417581bb9370ff74d29) (0x67a21055af60b500084da7bbe8ffd6ce65c491c5c7f0e1d329c43c051010eaa) (-0x41a7ff45aecbcf20976b3eb9a0fb15db39c2a4782b774aec39e257b7fe3c8d3);
  Dbl 0 0x5794207a8470e6cdf6e733642a1f1046173a0fb52e2a8d8804991365073f4c9 0x59a6e07fa802ae7a65a304b2493c47f07da829f34ede62024c194c3680a0b2f (-0x346fe597322e8fb41758b55c994b22948ab49caf6a32af1d67408ad8a5d89f60) (-0xd6e75593d4aa7fe1a729631697a7b4d3debcb408a7122fcc65cdd2a82fa36ff) (-0x38514b2248be964e45a7657e4fbc2b45fda88f155559ffcc41350382f412d5fa);
  Dbl 0 0x61b10e8541ef90d75437264c87b5130dfe9fa00deb56a57f0fae23c51530300f 0x3a3196f79332625bc184aec21a8c27cb71d175d31f2f311c495b9eec639bc902 (0x32b6842b484138a4d3c4b159e33817c7861038ee809560016fb5d9ee49808) (0x3b533c752a89f415b1c395e56307ac64ca095344c01042fece4b4bf1cd60efea) (-0x242f0892acf96195a1b6029249e93872db560dc1d84a6841a2a9d2911dddb7fe);
  Dbl 0 0x13f2b2978c532c402fced258bd9d480c8b8d74d706a724cff6e3c58273530a19 0x48602e390a6b596807ecb155d6474e32ebcdf3ef6c88adca6e2d7366c5f82ac8 (-0x351c95bfe831cdfab6c19d3a93fdf997e130f19ec4986d92c32b16f75294c242) (-0x599bc63a6a182df045d84fe5de4fc4454ad074fc6a9cc2881b008fcab04f955f) (-0x8e444b93d925694755cf12ad120b16b39edba58212261b91f9dc0929641e383d);
  Dbl 0 0x34e43b88900e8dbac5bd721ae8eeb4947b53eefa683dfe82f0f25154179abb33 0x60d66545d1acffef9b0a71a96ee7faf0dab05594f1aca5b397d2a7c59cd9931d (0x29c0af8f4663f6fb6b1e57d215417c583917fdcc788ed3853b9fe35abd549e7e) (-0xcb985ab605097cc956b85718753f1310baab85a3e3832b648d821d5ea5d7aed) (-0x46ec5337bdbdf37c6e29cd2a7f704b804210699582d6a0e4df53c8ec68df83a4);
  Dbl 0 0x4d909dc0723ceae12b1ba5820719f9c7e1f71aaae2b16c6be32578cce55be9da 0x1889c6f9523dec2beb05e1b02481bf8336375f6bcee1081d0c045de5b2d56a8 (0x38c25206f100fc8f8a247e3f83e3adb7f8b9131c5590ce515d31b66abac230af) (-0x2c4dd0ce40d19c075a348c27632fc398e0f8672e02a5eb919ff70e199e28ba54) (-0x69e49dd8773323a3781baeb804209d5cd1563b8c11ddfca3bc2720afdf85904a);
  Dbl 0 0x2478eb7919ef2c4c08ccb1970882ec72065e49c7c64d8f81bd397a6955321779 0x2c01dea6868744164bb5e8286861dee6dfd3ffc310b4d679fcce214a8b9219c4 (-0x33e065fee1c9c0260face7bcbad76356b0eee4ca68ac4e72e942a87de8a9e5d0) (0x222d6326666422cb438234ea510764e453552116a7c70954662234be54c8f6ec) (-0x5fa1a7c8be6ee8400fa0073ff572227d071bf3e28e9b595c28e615141b039f0c);
  Add 0 190 0x57c8b6337136918647415adcb81a79e74831b3e5b1696278e4d3c46b6e9fc8d7 0x3b7002cc6bb00b4872a5b8bb99cf0cffe6065d27e796f3acfb64b84623e15e0d 0x224dd5159ee4baf86dd2cc2dc124e342e188c1764d190e4c87655def8172e162 0x1bcaaf8cc3db925cf2564657688fa743cbd6b9c9bf18d9d5b7c82817b4199ff3 0x7287892d6dce013496636a146b4a289da737609dd60853a72aaa1a8ce645aae 0x19b6849acbf326215b7a6969c51245a28f06652618304862aad4eedf46f96d28 (-0x367c1ee5bb3bd72f02688832ee65c08e0802ef99e5ad03812f038e9c8df1a620) (-0x44d35c891bd8f2f37f1f8e1a3d6af93462dcfaba39dc6643318acf547e0022d7);
  Dbl 0 0x1384d45da36b5971bca0ca1ea37f8de0b7c6cfed637f7e5009f274eccce9db2c 0x509a559f48338fac7d26d18a8dce1546951a278a36512f618085a55460e16203 (-0x23ff8bc9d9801596a62d9eb97b2f5ac896edfb6ec6f99d75e0a5583a8c6d76c4) (-0x5335951c6219f4e10a5b70f519c536553ec0d0b92e3c317b2e403907dd9bc806) (-0x7d0d5dd4877899cbd3f96df9a4d683cc8dd03a5b3348c8eb64db27f05f8ac1c8);
  Dbl 0 0x2fc9ff618869651a28e13f9d99b2c244ff565a725db644af4cb80c633450900f 0x556edfc847e45a0e0ce8fc4a10e42cf22d407f04c42935b5d1b0bfb1ad36ca3e (0x34c15ca7090a9ff46a26aef532562361934275cfaf32b3f522fde9e8e74c0133) (-0x1b0f10e2f2745caeb4dcb46f2f599573cf5f95027cac2ae6ed558f0cbaedb9ee) (-0x3b7a26fcc1ad3dc821c114da697a9628948919d88ca22ced2b6798939e9b1e11);
  Dbl 0 0x3ec626ed7caf6b4756349a9e9c9b816ea0be5e0d39a45fd07988f89deb2fc033 0x23a760bf5b6281f18f30819ad0156e582697789e6aebf6aeeb0d159912e32180 (0x2b4279a7656604c86f6eaba18a4b1e4a4327ed5c4f08eda099ebc0d88b07025d) (-0x3c9d8ee99f1bd44a9f6507a352a2b1e5ddd0ef743daad0e2e957e5fa390032d2) (-0x583cd16b0af01352204b4c0067c678fc21911a5a84675f68e0c960e9c0a8ede5);
  Dbl 0 0x10824557b643e525b3c15e3d2ffdfc17c6e4114a51f5342ec2384f0dbad9e030 0x35e2884223d821e8fe7e6fed848bee58e087d86660c8c20efaf0762ffae12bf5 (-0x1706b24af48935f25c157a5e6874a68e21b8445565881e98e6a7a1228ba55720) (-0x2360898f61efc387678b1b87b178ea38146e407e242b1d7bb034d4d466d5cab0) (-0x37844bbf942aa7c8cd516717a86b696ad01e5df29e80eca0c652b0a9c9ec57a2);
  Add 0 203 0x3c2dbac557be36fda21dba1a159e1ea2b3313210fb60f9ea1f33597a2b2df70a 0x9e843bc4844398f26cf1eb9dd242517ef66e4cd19a36061dd0296b1d71e0025 0x6c4a82bafb2dde2125fa1eb20eb12cf604112f91cdca7daae1a8e9c2fae7444 0x341d99e64796b8e666345571e6b0615e099c454187a4795c30fba6122832e2f3 0x1f664a98da7db1d0cee5900b18a1af57b44a2ddf1f507860c0fee2bb863fcbe2 0x29ffcec4b94129625991a24a0bfe24449e59f0aa883a86f8911db856a65ea57b (0xf425eb4f91b0f0288c398575ec434ef6e5fd86a62389baf2b5620edf5336fdd) (-0x43a95a5e3b504a4d9a313f2713b14079ba878e368df966b47589fb680d4f5254);
  Dbl 0 0x2c321d78910db1c932bc72fe9c3839129ebebc5e859c353a1bce65b3c748bab 0x735b63ed30667f4fe6e83b95c6a722a9526b686a814dd6736fe2c183ed086f13 (-0x1e646519f2bba5138bf7fb67b9e09f7f57f3d094cec4b68162ff27ed9cc5acf0) (-0xa21163bcf7155a2525c32ab31bf1af301017395fddbd646db737976d2c301ed) (-0x269f7100c5f3d278bfb8a7efe8a2a62b176ace0a89bc4f375cc8f359ab0c4e96);
  Dbl 0 0xf9ba58dd5bd3feeb254996e62f8c01b17da27c38a8b4d8f3f038b92366e9b5e 0x1e911da70a5598d8a12565954f0ef59a02a94046d0bd08c517983b1e4d5649ac (0x72b8ffbea2f0b231828f510536a0832a735088e440652536ddc99ef6cb73ca24) (0x5ca1665783fae6957b80c06e635748534be2d9a287caadc739ab7655ae30906) (-0x88f54ac477eff8464cefd68ed85db58fa5522c60d08477e2cb5a37f806d73c5a);
  Dbl 0 0x65e2c2ca9b3b1567c16f2f88839e2886953e3ecd08ea7f4fa2e4a4106e5c7d2e 0x5614b28a657d51f2dc6e10f54efda536afb317f2835588edc716c87c2cb8684c (0x5f54c1c8b72c03d5b4b4e1ca5422a28f7460539a9cfdc2fc19d1397de02c332) (-0x3df5ca2a2c1129cca2c75a2102e9c9fdcd1aa5cecf0500dd4140a20c9593b24) (-0xdd7d60fbf455cfdb5578b713042750b018469d504d6cfcc4a3a32abbff08e34);
  Dbl 0 0x47186cf6a8d590504ba0d94c7b6e22ad12afcee0a3f740ecf640bcf618f66e9a 0xe0920a2923aac20c82799fd612fc8576a88813e7e16a12bd58f9b690a6bea22 (-0x19a04d6bd2aab59016bec4e5797cf9743b9c5feda3f9c01fc4c1db9abc9a8871) (-0x7cfb0eb2b872cbf90136b6ff337ee20cce66ad7958cab99c451fedcfb430479e) (-0x9ea8e32edf9ae034824a553e49103b73c56c9ac1369929f3951d22b4e42de5aa);
  Dbl 0 0x1b783d02bef7b82ee333c34a5cd239f11521550ff5cd5bcd7ba9341b02926fef 0x74bcaac7dac7fd911093b4d3de1343e08ca77e85803303c00b2d810965d917c (-0x29e6c15baff7b5b2d5c70a9d46c63a03d74e325bbb87ba1af19562409c3b055c) (0xb69bd7c5eddeb7892599dd4e2cb3b3d349d4883b30481a6cda14c5970f061c) (-0x320fdbc962140f10725d8bcfa12ab308d3100391153642ef1ac8dae3d76b6340);
  Dbl 0 0x6763d4739190403e13ee7b8e5848e2c7e633bd36694792529ea6190728627afc 0x503d18c72a7a5de6626997990b9eef79083680bff952fb5aa4100e6b50156ed2 (-0x60cc4009a9e11a7691fdbd2b961ccb99e41d135d8d91cf9ed00c92bd9d3ea6b) (0x265869182f365fda55bc86ce410424867d57f43392bd8c65a7dbe3e2e82d1b10) (-0x27691f0683d493a3d546d08fec44774e96eaf747cbef6303f247a851fea57761);
  Dbl 0 0xf46a1246b023d15772d0c59d177c606f86658fddb41d37c59d3a06a6fb48c03 0xb37b591e031c3b54743b7c5ce9e67556bb500d9a0d3a4ba61288b7d0950221c (-0x24abd99c55eceeed2e4eb80ad45f613371080060fac9679cb2dd7f5906373dd7) (-0x8c10da24bbd03cf9af43f78e9c11323a3cfb5e12dee9e5b03e77e6606642a34f) (-0x95fcc522f276240a20147994cee8d4dc814bc75f38e02153b7575bac6d61d750);
  Add 0 218 0xbe43c86e8f56e71bac3e58d6753f36410a2c22eb31f5561fd4987169052dd14 0x1058e67b175517febf3eab0ac58421192fa1af61daf7a24face06b73c91f9b90 0x33a16390720b4f32ec3c877d4c6e099514d420f956225fefdc98a6e86d3124a 0x98051890fd321d47e7f06f01164dc4f5a9e841e95aa9009c06640fe88dcfb0a 0x3efb72f767027de3212679e2a3767bfaddf767ce6168e11bf62d64f950cb2f82 0x25b96d1584ba967f95145e8729b77bee6e2100528a37d2989e9de57cee6bbe59 (-0x547e3cb4ebc6bce3edc442d04d8b0746215bdc8e833c0bd117b025a64aa8691) (-0x1a8343fe98ca802ef785f2ff2b83c5ca1b0ae07a9886937d0dddb2b947489c22);
  Dbl 0 0x7c879e8c7081d98839e35517d6b77a37bcb6cb0b078c415f392e3082990217f 0x66b8446641b9bbcc7ba1498c3b2af6d40d232ad82d05b9141594ee73718c2bd4 (0x115da48588af26fbc4d14fe8c4d31e9d788abcebc311b1fbc5a51a77515cbff) (-0xaed219de99f357148bee850733e38eedc11ee37330b1122339996348d60071) (-0x26c60e24a23770849ab2f3280f67a89a33e8289a10a1bf3dc429617800b6977c);
  Dbl 0 0x36c645b13fdcbe3653c50ce705582b1af7ef74133eb46787d67c64825d7bdc2 0x180a2b6ef18113e1ac911501b5a02131ea2c554f04b87b0da879dd112d46a973 (0x5a7e6076a5ed02135b3680f8bf87215668f664c01dabf9fc7b20df463fa558a9) (-0xcc4941b2d8d3f197d048110540bef98d01c3ff3cc12e27e41c66a02a3dec60c) (-0x62bc1c09935ab933e87b69967816cd39daeb566009f2d10b8e8d76b58ae6f1fd);
  Dbl 0 0x1464f843d120e00809d1e6b6c728fe759c3c9b780d67b4578dba781d857ec632 0x21b515df1f6007edb548f432675e16df019fe587ef22755b580b593f1a2963d7 (0x4e24ad2fe8fd65c3daef1b5e25aa0e38573d5561039e8c3e369f735174416cc) (0x2db06974fbe2c10bacce312799fcd9058b6606525ac95681ae222c375374616) (-0xc2701c2bcd5fc0ca28acf675beb08e9694721e432588db9df3c327e0516473e);
  Dbl 0 0x610a6e92d96928908967326b27ae9d7716c8b30dddc556f6670a9ed1a0baa8c9 0x34efd203b02eb60080233de87fc4ae5e01bad2fad33ed44da394db8d644144f7 (0x636826e7ed84608465430c70f965c77c4b3604cc98670c340927f8b197465b3) (0x28130293ef9966e1219635e3ad92694d201f0cc3c9d34d928b332e35c028bf6e) (-0x29b81ce1d8512aafd9a394b72820cce61321092e539416be839c415fd536e87d);
  Dbl 0 0x12a4081b88316a46b1c9d2a06a653b0ebeb629961ae36c046ccfa5c460add5f8 0x5fc8936979d6ff77269c9e82c3955216350f69a947201ba6c025a57d91157099 (-0x390ec4807a89867ad1322ed3ce6fb43909b07ec736548948c37972dd322f424d) (-0x5285634a9314bd8be1281928df0c1d33205212b21288260f4611fb8c2065f446) (-0x88c37080718925941020ce43a6af3a969d53f3a45ea1282e884820ebdc084775);
  Add 0 224 0x32356883f979b5035aa3e1c4caab61991bc92bab8b2cb794f3570d4fbce727b4 0x7237ebea7ade871c5b5cd871436954630ea787c3b5d087ea7fed8eb742a3e4e 0x3f00cf4acade48cc9ccedc63677eaaa347b4d607da3bd86298b0cd7d4f96ff7 0x5120c36f3451371b865fc19e3c3bb55d6ba80b31574b20328d0ee3756c13f33c 0x8a4cc6d8bd7c5b37263813033fa2ee1b01b2adffbc7c9ade72d19bf48d29645 0x6c29aa5e8b1fd9112faa3e2ab9793f846d36420351ff6fe7e068cf313d9dfc4 (-0x1ab4e64e709fd4bd130e39ef26d060d58f94b939fd50b580621353e20a055e26) (-0x5663e038732e1f4805e8676b08f0d1d82b844e2295bff3a0ab226ccd1ba437d9);
  Dbl 0 0x606076474b0f7531d3f1e41a66d8fd30280a11e286a80b20edad439b57fbd65b 0x17534c2e74c05d0c00480015240046a2c2d209d5dda425bf48715e36ba0cb03e (-0x154e48d40b3ffdfaf7f04b0ce6da303ad107d9179a541d8e8d2fa4ea0ec69d2c) (0x17b2b9a5a937f3539d8cf3b66a26d63f225e9dc9e7853de8bc8ba1c4cb728270) (-0x1d6ac123840dec0b242798ad4ecdcc5d047f7eab2ef27115a330ac3c2d842118);
  Dbl 0 0x8cbfc4f60109e17ed0c37c7842c1c9eb78b69c8bb9f29f4c73a9f7a65bc0b03 0x2b0b264b478dd26ae51a326b6cd22ebd3fdeb62ecc0e2fce7b040f37f3f10417 (-0x4b6df3076dc74641c275d3b86d6ea70637d04406e9a4dc48a53123fb2b5ca417) (-0x1fdf5014f66fcaf566777af3534d666b69b00b7cdb30fedbda6bd427e48b91ce) (-0x76a16a37c63026be950af2ed1539fd9f6266312fc4f461398b9b9a1f8bd3469d);
  Dbl 0 0x5bbb10b1a21e12f8e61969cd523b720b2ab309df9d9d387ee1718ae870f47ac8 0xa36479824a85da98eb8b9c151da16994a3886adae96faa30ecf44eb791013e5 (0xf50772e209a26c54773c6844d735b24852faa7aa7d2e5cb00cacfb8a6970301) (0x514d62b7f1e11e98be657faa4112b1fa364604ff9b077ef41eaaf09424b4b0ee) (-0x1a6d7a9b3fd51c7185c637281a585465b23d92a1c186809042030716f5660893);
  Dbl 0 0x2816ced2d000e4a6997d1d8027a88b94ceeb66a3d07a14c0d73d79b5cc7d3bd0 0x4d08469975deca39aed6e93494dd10b34be2c2a90b7a988608511dc54ed67494 (-0x47af2d7a17adcf43279ef22b8fb0fac8b5aee6b5a4d3c28c87df1f7205a07487) (-0xc0564689c5438b87f242ed22a763e2ac2d759df79926c5dca810c2934f26fd0) (-0x517038ab8c43276e8147f67541f81c610c9c2b1c8f17f9f315283a249a826c71);
  Dbl 0 0x6db43778ad9b6d1cf838cd4a9e0bc4d281d17d14c1e7f74283b5c09acb52c6b6 0x604a00f1f24deed5ef1d2a2aa401f40d12309ef1225ad992093d674205b31134 (0x2552ccda0504d99fd3b22ceb1dceaa3e1849eb800938747df827a75dd107b406) (0xf57b5fe4fe233f737109bb67f2424f8338ef0d83d68ba81d0d943894523459c) (-0x7d47465f9d60acea10504836865bb0104f4236eda603b7639e7929bf10088230);
  Dbl 0 0x639851fa671140c6ba903dcc897fe36bd7881d9c298e9a4859084acb3c0d3097 0x4a5f1009f831ff141f070079850d672d8381dbd4cd97f8579de363f36d289071 (-0x17d640b767be50f368217019fbe771d66b47ecda4bae4a977c85e86cf6ad02aa) (-0x91a79f8222da90b6f32df5f4e1e2f5415bf1ceb39496c943f67819eb778daab6) (-0xd31be84814f65b4a07ce959b5b0cc153e01d23bd000d0f3091123cdfc83b5488);
  Dbl 0 0x147960008a6dce854ed6ab3b7d9a2ad4e73abcbc89d19ddd75bad934c6048c7 0x6aa1193c0c835a75a3942ee7c56e4b3df17af56481a58d46d59f72d7083c4d2b (-0x25d9ffc8ab52b2801baa6e7b8acb8ceb896b049a113375a7627c020b2147ccaa) (-0x7fba938cb9bb235d6cafdab0364f8cfcab000c19ea4e0130a2c4e5aafc5f5378) (-0x8a0bbc11738bfaca9ebb8eff6254981b40727c63bb11a95682793fa986a1ae1a);
  Dbl 0 0xf4c930383d0052c11aeebf3b5b7430207c1e8f60789332cd9be2d9d52de8004 0x276bd47a3493d8c0cca7e62c24faddeb38914e95998dc4ee946aa00fc814b307 (0x620fe17a5f92a3e13a0d4072933052891afb9528f2cb9209b608d9a933ba5a11) (0x98a83e640b3ada461ff28c8b5427c90c3fbaf8c9f8e6c4f657087ed1b055902) (-0x80bd8097c5f03d1a78478374986e030552bf8d6cbd7cd5811a97b6a5f711421d);
  Dbl 0 0x5439a32b3b1eb5461daf5a92d783decdc51eb3c31b4058763644726dd8e9dd32 0x4d0274892a97a2edd7514b4ffea0a6232170a59b401f49ed585f0c77d91e9570 (0xb62d5e3c6bb6f69bd155253d0f16257ede694267aadd3a8c13f4da13c0d5f52) (0x24d312355ee3fad99db0e58812d2efc29cb4dd0f5c9f68f6e9d87d2a9421f736) (-0x3a9b7d06c284b881b3cf14bf25e6e36a19ea885b2da8e24d99b76732b18cd4f1);
  Add 0 226 0x396318b665481b39cc68d8174029cd64a563202164b5cbc905586f7d250fd7c 0x3e934b3491b504dc89ac831cf94e8b009f72804bc7d4187b2447cf194e73a3b3 0x2d99f913a993c4235299c5b3273edc697478979d64c544e86ea6414709b28ce3 0x3e977278b68584561705eead833f6f7d2dd8bfe27bbe4c7dc377ea477bfdaf19 0x5120d1e573d6d1bce4cfb4eb3f6af66849d4388d59dbd2bb69fb91a07b64960b 0x7c84712b06be12716b7af360ce25b93ef9e97fce331798d46cd51761a533c8f (-0x6d9de963e041dd319ac27db1c2b086dc6b4c1f04805ab4b11f6809ce1b556c8a) (-0x75832fd8ab21dd695424373cdce3196747ed367e38dd6ee9301050707c009058);
  Dbl 0 0x28ed05ddd19587c181abfc642b5d94ae9fd0875c1351378cd144f3f77209dc94 0x370eb3d7b9c7fbfc220cfed46e1fddd57b0aaa434bf272a3c803d7b9f012b20b (0x21aa6d5515fb87b88c7813451eaa8c850d46b42c5c1a2c608a5dcc18cc36b06d) (0x270e7229d1078a72e034a9a374fb6756e77575b6d22bdff8d3fa3117b471808) (-0x2a616e8b4f1460f71703909ba2158177af57b8f5821e5d6cca6440211cce8c87);
  Dbl 0 0x3ab30b2bb5c608567a296c9e21bd10151b8a72432cc51560c0a2fde665fcfdbc 0xd4501065f25b239dbc692c9cfb1b001e1cf39955f45a0439450ac12385994cd (0xbb3458031d1ccbbe243c8de563f470c3e13cdfe9076cf3026dbd1eda84f4f3e) (-0x21a6377e3a5cd033342590c79fb81714ad4be0c8160808765c24b91bc8ae2424) (-0x29c6f5125c2aaf57792919a596635640179b1ac83414313640e6f5daabc3185e);
  Add 0 237 0xde795a01750de17361e62c27029f89703b43a14399b8dc9958c0d3082880284 0x15c8f4f884b4de5d6f6025bbe614f7ad7025f9705e9f94d89af0b3eae20567c3 0xc665566effe2487b0a7b8eeb2dd8a9e2f75f2e8413712ff9926e700292913eb 0xb3d3d583fcd8d3fbab1156a112b9af3fe532b3b60c69f7d1921860797e81616 0x6405bf4fe963caa5d973bf64cdf0b593f8d3f640fa67b3b47773a9e9a1c31a9 0x1c16af0c8664413d795d9feb2cd3a46ff814faf1398e24a3c2dffdf38579de8c (-0x2cf764e9b766f6e3d36248f4707129477031ca1f5b53ddd73de0abc662c96082) (-0x2379a77078ec2691659c228b7bcf65fee1e9e54696320470e83ffea18c48cf54);
  Dbl 0 0x47b9745e786e22a0eba9b8db93aae52fe10ee23a72d6805ce3d2474aecd72ff 0x26c80bff3030a2c56443025a057b6071cddbb77d61286540362194accee35f0 (0x26d111d0b08e744d2c8edf7936fee03b88e270bf3eb2e76ff69e01c2a9b2f77) (-0x2a3e745651766d751a3b7aba9ea67a14bbfd78157fde9dd9ab7c57587d1221a) (-0x728d94399ceb993b9a5b3808673dc1bd38276f246ab4e3925fad5099e352299);
  Dbl 0 0x52686f2d4e84e67123912ec4638ff13b0c4c0f98e4a78b898220c8a44903646e 0x3f3228f41908fc350243e54f3d7da475ca5872a856f59747e1f6a784e522323c (-0x1f66f0d5a78551452cc112d80f9c97eaca30343f98d57ea0ed2a1c478e9709) (0x2d961a335b17e00c37e2855cff80f933a910d06a26da22f348a03d4ade219350) (-0x235390f52ea1aaa6a4cad2e749b405769f170cf4662436752030eaf0268d1069);
  Dbl 0 0xcd7f26d4060f198cad7ade924809a9a0853aab0ec83168b9134eae0645c5707 0x48aa31af5c405996fd38030709abce4ea7ea50eb35706b97f6e983eed1d4ba59 (-0x182143652c27fd7c55b2da69a2126fdb32fbbed1bf073e6873429f71f267d163) (-0x509902a5eb4d2172ec0bf166e37b09aa753d6aacbdd72feb0f3e3d0ee635c147) (-0x915a92d443836317c85555ecae31892586401dd1420815383668926378ec0ef9);
  Dbl 0 0x2bfb8e66eade04604bac123159fdf3576a31f2b826d19ba6d0aa46df45d9c2e7 0x45a7282d4e5506a6d9a88dd30b7e19076820cebb989efb865abf61a74888c739 (0x2c1fbd2f11830fcb085ab2f8c34c4ec5c779fdff4fdce175e5dc2be70cc50414) (-0x434ec6e24402d7c56867510dff08a5fc730d1137428e5c68bc5ee36629a87aa) (-0x41ce519ee0665c162340918a14ce722f03a699a23f9b034031b4cc502133ccfc);
  Dbl 0 0x2a2998069b1c8727015997162d06599d94aff0da0c202840a07f522d9b93e8d3 0x2ad9a12d34ba04f9fdd8f968f78abb0056adf1b9ab1dce7d4722dc416ec12143 (0x1929a20793d6456e670f6c45bdecac8cf3f56c190358e46e8b92f4156130bb3d) (-0x2d35b74197e3201ba38b105d0bce9cba00c0baa207c904abee58c3ce393db965) (-0x424d928254ec5583b8402ced33cd729da8f92ca8a4bb4781dd1d9ab762f78165);
  Dbl 0 0x5f607019661a22149af1c7593cdf28bd99d99a1be3affe9cb99d30988629793c 0x1b3b29dfb3f527dbe3e2d729d44e53c9d26510636f9aed5fa9654750c191c9ea (0x81172fad76811935c114a0759309a7bc28e9090f2ffe92715bc9d9512cbf2e) (-0x26d5dc9f13103d1e4d0b5341183599923de6500ff76c186bda955f37941afba) (-0x2760f7653e7e3471f61749d0e99b40ae5902ca8b60a9a9b8646142427f2f4fd2);
  Dbl 0 0x22996e9f41727daee46105785f8ee24a1a4036f0f7cddc96a5e4c2240b20862e 0x2016c090812cdd86a159806f205565c938f666fd08b307949732e45445626782 (-0x48126cc2bd5dfefa87f8feb7ea7d7aaa1190cff6e60d4502c0048be8d2d4c2aa) (-0x261368c110558370f70598eaf2c6e97a7b1d3ff7e5d21a948669c82e6f073b0c) (-0x5b1ba0a004d5718d76f7638e2ac777dba78f71daa3ec2d35a15fe302d1febeec);
  Dbl 0 0x68fa6ed3dcee3a670a89abebdd53e4cb03535124a02da6702a5f1a8a09a76d37 0x5e9c64d1367b8de4b09a0d7b5384a068d055eee970923bd9539cd3584c8708ab (-0x171b43f41479628dbcad8cb79e719f5216c36d64b5a8ad4bc9261c7b7156ef1) (0xc0e588760c9d89278220efc7163bb03ae1efe9971a71a1c4f1f4ccf28803c4f) (-0x2f5622c9f7e97e2c02cf50c85f5e94f26d34798f99c482bee1f720895758af2d);
  Add 0 239 0x4bc8a30f665586f551f31e8f4341f391bc01e3f5ade721f24818df73479705e1 0x35ac714360cb2d950af6770e81a61770ea4298b07b6a2c518d79c5e9208e6f8a 0x2b09caac618ada72a6dc967327402c123511d69579541ac0a83aa0a47478ac3c 0x5b8123902eddc38fdfa8d0d2a3fb42a69526bf585e386335d8116a5abf69727f 0x2cfa426228dfe80cfd293875a8a648c6d8381959ddc09f2d8adb61d79290fdbf 0x11cc8f229346bbbca743d03e85ee0b0db4c6114085995cbf084364cf2e78d7d4 (-0x65fe9fa33094cffb4ed2b22c2594f4096440eea3756fa3b34a050849ad881a9a) (-0xa1afa0352caf8bcd805adcf5ebb6c6579b81cf9ba65fd9886d448db2af101519);
  Dbl 0 0x1ffcda029c4c60fd6f15dc10699a0dfbbf7ab1349aa71ca5c5d1ee4913b17a26 0x5bdb3aba8268f3171d188b23761c8352d50765ea674d39e6a46dd49241eb4dd5 (-0x18b0bf5e74fc78614dac57ee09796c782c2b3f64ca3ff8afe0370b6a0953f80e) (-0x2a830e117613ce345493a471888745dfc77461f0dbb49b01787ee88853c00c4e) (-0x99d3880a1a51f443d4bcd8bdeb7eee0952f0094e21853a65b4a75469d333f0c0);
  Dbl 0 0x3d75f30e262ee8bde676dca9ca4cdf46a8994a2784a6d79a8604659a82ddf58e 0x1d9619a036fe37ff51b042dd0a4c52cc4dd96d2dccc8aa79b9152462683df04e (0x3ff4e1d13751958cbdc9713b8dcb538df92b7ffcf61efffd92dc2aec99d151fc) (-0x122407ec21f28d27943e0d545323d88131c38315c6f1e3c6664ec5c9b0ac335e) (-0x6147462accbc386f9a61761c5dfd3f4ed80df1bdb24325e8327485e1d97538df);
  Dbl 0 0x147af9249f84eb393beadfea6bc27e68e8009abe16c800ddeb4b0dcc155ac367 0x5b2ed790cd7b4cf321cf9042ddc5c337a1cbf169a1dac4fa12374c2147fc2fa7 (-0x1908880420cba25c6175f4da6fd5c02e83a3c5676adaa7c341612f6acbd3facc) (-0x174d71b7bce576ff80e23cf27db244ed6dbf75aac1030e93323782db3c1e0b74) (-0x4c0ecd4a68e620e9df740b19653ec313054370d8c09c647518a97b41a0d8ed4e);
  Dbl 0 0x30dcabfcaad2747c6d7694b3666bb7fc9bf597f76a5a562adf6d50d5083a037b 0x5c0671d4b4ff46f129a14e1e6fec5e68ae327f292bfb2d3b489699147aa7ad89 (0x4419f9e8c26afec26ff8b4c177ce664cc49a2507011302b9a1504ca3517e03ca) (-0x137c059cd702a01518e61b2e52598eedcf3d518e8a8f9d715b6f1637bb5d0bf0) (-0x63519ac35f126d17bbfbf2380bf65b9d9884722f5af9ad86069550e4439935b6);
  Add 0 245 0x3456c0f305138a43412b487dde754205c9c65a175e31eef651ed4473e1db379c 0x64afcc4a67c2c19241e460818ef1621296754f11541feb203cc546582b67d04c 0xbc0662cdc65625766c060e062e9a403bb763e08877314b6cfb449ca7a6d7e8d 0x208fd7fb01d0bd7733dd66eda4598f4c9b99878fd6ac8eab9d7770fe3bc7233f 0xbdaa96d233597143ccd342fe6d8951e54c746cd5c4f784576e8ed1cb162730a 0x2469889f92e6269a100b9e13cca7aa53318b366d6964028702068289a6060387 (-0x1197cce3f908e09b368fdffc5658b3dd0871cde87e89389525f2bb08a10dd3ed) (-0x564e6e0219c2650438b5847979790127c2c71fe9d15a0ed5a4bd27dbe603e9af);
  Dbl 0 0x69f2b3ec03a460f1a718f710d3d2cc15f52329385b9268dfffad6f60ac64a1fd 0x48ffa2684e5d25a36c87ad7d99a291c6cf7319dab0582f1c2f3778a5d33bd461 (0x3fd1b8096403b62a5a9a2dc4bd152c29881bcbc521f22af68e7e2c9cd7d977a0) (-0x20796cfa517fd3e068ea2d3cbc5ee16e1ff2473a1b04ac69a488c9e5a39bec40) (-0x975842b7a1f4c27e59787097d128078242de6a8183d1a29f019b74f5a90080be);
  Dbl 0 0x1ce73010138c53cf2e6ef75e697d0263359158e4c7ce671ebb19b0f8c534c068 0x1b3ee73a1c6a4bdfdc9d46517dadd633d6b1256cbbd1f3948b41e1aaafbc0113 (-0x32dc58a9d7d7eb08086af9777f76f53b48cae1728276d7ef0c9d6fc06083f8f0) (-0x7f8250ff27d1a34bc6f56320c0e890ff6800ca0291114a14ff5857500ac29d7a) (-0x945f7de445048f77a757f7ea0c59315f0c987af1789a1ea718a0f3dadb79761c);
  Dbl 0 0x67c698a1a987876ea6eea1775512c9cb77682eb8ca0580b651448bfb169e7e2a 0x5e4d15f5ad53b55751e190414599378b4747d8e4fce2f23e271b2ea3ab3e85b7 (-0xcd7f89a26201d55b9f1034718f2aac6220da642f02e49f41faa12e8abc7273) (-0x1aa0850167c9680eed30262e9f80280ff726ff906946763553c3c7045d247d8) (-0x187149097917b63d63e0d573c06813238dcf1161c7a67af9bd718075800b1abf);
  Dbl 0 0xf70b7171cfcb5b73c31d458a442908ac79f784754398f73c71bab8d5e46d130 0x3445d5e6ef7d417f8bd69ad73a9e48fc57e5fc1ab3b53ad6ef7310b4a37c2347 (-0x1030436a4d998975c8d7e42ad0f03db7c8de1ebcb8a45bc25ed82deffb7ba313) (-0xa563355d9b80d7cced4803b96c30724fc98d95f6c427ad7d7dd33de6502e940c) (-0xb543cb7513988f235cdede4d162b016b447fe16bf2972465faac8ce2ed087c27);
  Dbl 0 0x56f1f6bbde8dd192212f41ae5a8e071c96e19f8cf0ca68c9ca4f8ec7b3016abc 0x620ebf108f13d00606c9af58ef32cad3aa10f3349449a3da25114c04e2250b9b (0x15837f08f417f31b71d47294ad2abedb9f91256140f8741c2b5e1b200b564965) (0x44f86d629cde52ad25e57809a865bfc0e6fa5ea955511fa3c4b57f569b1b9b30) (-0x771db1a5880392da2314f39e78e4ffae3b63c8c8505c7012a7f26ce22ce72a7f);
  Dbl 0 0x2d8c667e0f673520fe91502ec5688d7a6d047c42b9caeb5812f24c3f5d13f97d 0x30a4f05748394d06902a38f8cf9183535c84e616ab5c97bb35cfbcded6dc3a8b (0x11bbcf78607b956bdfae72b273763c1cc42a513bb6efce533ec045d100555f50) (-0x7e741b2922b13301bcda9078dad2646323308bfdb849f53f6f7032aefbeebd93) (-0xaa2edd8e6af98f141560345f53520f349a5d0b64c384c0fa0514768517811286);
  Dbl 0 0x58569ec84491a97c530b5bf5bbb29cf25f1eaa73e474ba37678b3c5f47487ab5 0x2f0db614b0042d5c5d0c2f0604b87f2169c5eab9b01f0d07fa613697f641fd41 (0x283f1ae61d0675b498b6c3c5a0fcd96dbe385e194519c5fae358e3d56de9ecc) (-0x1a6dff2c0e9c214f472bf987b827f4eb0f2f336059e799cba15575928b7d00ca) (-0x2c971a11caaf617d0defab28611a86409cabbd9f36ce7af120b4b561214772a4);
  Add 0 253 0x63060c595971ff6f104999b6e5ee80dd7adbdb85dfb1b0548c9ea4a3747750c1 0x2edf85a20bfd07eaffc37fb675625a13706379d801f927bedd249531e1ee7f60 0x153eee59d99c313d20364a13c52630fd3e269022db7a960f9185c406c6bec197 0x10a637256e3cfc8435358bb1a1b720dbe33a853ad5c2863c90e6f11409780d5c 0x3a5e97169618633ebac5113149138920f3745dc766e9a4d6f24d97085996ac81 0xa9b31ca5ff25c2222b4a70aa07f652a8d52c9c100ff915f7c6e260eb4e9dedb (-0x2267447f42fe39de51b106935c420ef15cf99aa69872d3922eac6ea92f5f0890) (-0x29c33eccab88a0ed436dbe61dc67b05821cf0473bf5c44403463cea3d764a8d9);
  Dbl 0 0x278d20ad22082234c8959a42ce3fa60ddc6bc022159605f407ad88cd52225f30 0xdeab4d058b68d2d5453d9ba10d5d4cc98e8fad3fa66776247dce0a93b8fee00 (-0x41a1bf24e474beee08d466187d2043677d3b172ccd5adf65ea1feb40e7a5d145) (-0x363d4835f6f5d9fedbad19a86abec3e70c7d6515ff1d01660d6ee27b3c399e00) (-0x70a092cc3dd249a0ab812d15d1206eb6abbdf623a0b3fb6b7b0e0f708fa3f181);
  Dbl 0 0x4f95fa61874ec7a54f1354a2c41ccc884199674f49ae2120488e1703f6708ee2 0x426fe0bdb23658b0902f344aa6095d3004488c8ddb5e83d45ccd8176b771196f (-0xbd2b305a1386e9907e6abf349c1836a9ec862e2fd0c4f98efe55f4d4f6a075f) (0x317cd8bdfebd895a5b22183b2a6569efa231ccc6fbe3f88093f80e7d2690c1de) (-0x40672dcefd7499895dc3f0e30972f8b7951f465a2713ccf2f339e52f913ca853);
  Dbl 0 0x385855d6c165b8757375a78bdc9000f375f7d49cfaa36159c902b44739253c69 0x71a75203413ea27eeefbff6137314be07e68e7829832d5074bdf4e8071cb91e2 (-0x108fed3195aeffeac28e739c0375d5850365a2604a8523f279cbc43486384a74) (-0x517fadab718343958336ec265bc968d376556b446dab55ff1397bff4c2a8b803) (-0x70515ba4208cd6e85eb366b8a3dfbf08dcee9e3e9966965e89d9bb12891a1be3);
  Dbl 0 0x30a8a095f564968548214254094c744c2ee5525775b13e035dc7f7d8a33e8fd0 0x10d891c4b36413a1e5659f5332f30dfc85eb88c4ed61214f51d11f077883bb5a (0x5409b3e6e137b7c1710f07f06e18316055e0baa6c48a587bd80836b292d0c661) (-0x47e86089054627ec45bdfba29487620ab9a9d25c697137316659b82ad97bdec4) (-0x9829a62def67503fd295e1252d5ef1da9d16f40322298951f8c09eac298dd835);
  Dbl 0 0x1316f7dadba135daff01437ff171da949cf90df3ec665e7e062289991ed26714 0x30c91051ef2e23daf68c22919446c32b6842c9e7529e7f5243306b40abfde2f6 (-0x11f9c16e8bc9c76add6c58fc294efb25d42d1307dc0955e37ebf25b6c554dc82) (-0x3ad2b5bdad7e931d397467aee9729474f54a29ccf52674d78e55dfeddce0548) (-0x319db128e37f50994c7abaf26d552ac91159877c8db03b208c13f3b0b0c1393c);
  Dbl 0 0x1dccf4d1a7931c8fcb60d73cef35fb4ac55a5d98980aa15bd4fca341486e726d 0x5ce6c8a41349dbcf2f971d5fd4fc274845838dd10892e5da0a1ac2a7f7f686db (0x1162f789ec409090e565f229db24e8b2b6c8c691e81ac52c7b539dcc8d67c0d7) (0x29d59832c8a50db9939e996c4c64438f1ee02eb3bc014528f6e0db79c626049) (-0x51e96c028850f9638b46fce1c02e92f7119b624ac09161045285179745e869ad);
  Dbl 0 0x4404ad4a12261d880b71f3d592810a7436d737cab4a0a63a7d3d9e85b939a902 0x31a231d9c1910809c8a8cabb8b5ab3c64a4b8586d767392a675c018837af6a19 (0x42c9b50399b00dabd167e76dd35f460346e18f19f87ffe66db475af2784ed30b) (-0x1d0c6b39b2d7c19689ea3cfa24a466b72df699e1f9dd1d01d21725d7d23ce1b4) (-0x5fc3d1bd7676c67c9ada412bd9c5fa91d646ef83f318022413afa3a740e016ed);
  Add 0 253 0x680329ed1ce7c932dae2f065f2a1c8be98b825cb2b2d4adf8a9d103e52d7bd35 0xba8e507623f9df42e8fe0ac2f33fbe491053226bbf8e81a53952c9597b54b07 0x6c68cd96f1e6ecc9b40f5e29cf92f8227be60fc9139dd5d7eb51dbc2c71e6de 0x2e77083f3f17468c98436993159baf537e7aa417f0dc0f9fcd75ec0b4b2253d7 0x300da6b941f45ce7bf13688092a8c1e64ece1d43325cae0d497f77706e4a0eba 0x223fab97b2761654cda50a5d53f6b7260a353bdc5c9f72d4f24f0dfae6978c8c (-0x204662a1ed787bf5b31e12527732de5aa206d6744a2665d8d7619750cf589ecf) (-0x395099b1361fd6a52ba8573b620287e6434c44f627a8440f845496947454bc3f);
  Dbl 0 0x18557e7ee70d264cd05b5458e62f0f039a90d91e1c7a143aa6768144dc6eed0d 0x540e250ef7cf00736c377ad0c218251e9e4636341bf89f811d0ddcabfd6f493b (-0x5c26038057dcd68de7b6ebfed4881336a4d4e234e2df559ed6eeb37f5bc3eb2d) (-0xd255ade9121bfbb1fe0958c538ab94976498bd035541138265d596ee64188c5) (-0x795b2f0883117caa44a8d32816b2c6eb84cf6cff98e2273bd539f6dfd0bf20fb);
  Dbl 0 0x5ae1952a1f78a7164c0b947694956caf9f163146388c9f500315a90c501c9fa8 0x2387f62b7ff394c0dedfe36cde521aaa23fafc5d6efbaaa44ba21cc47e2d2e5b (0x37d663db1634b478b2d36cd6849f3f8e2e2b08258c53683a90204864e03b3e6d) (0x1106cd0480a03561c34a48b874dcd2197884a4a4f7422f4cec20ba7e284b54fa) (-0x56817ec3b01ccb2341b53c14b3d330b4f900d3592b2c4436f8fd8fdcbcc8f81d);
  Dbl 0 0x38ba7af5eee1e83f3cf3b1e0a2f8e7cce279e9d7dbc05cabcd4a3c6bcc962acf 0x30fe1db17cbece0412f5461ec113eb1d61a85240d76ea22d426908ee90fe0650 (-0x3c5b0c05bd419964ba288a251995f0a81bca0cbd605b25caf902486a77929ebc) (-0x28341a01324a3293428595928b34fdab78b3b1a7ca7fecf659aab21cdcff5735) (-0x5f86c580c749429789a9292b4218d1535098b11362c39dfc45fba819c9166689);
  Dbl 0 0x67c67259636383e513b40680fc4c40d85a0f8f086c4b38524db3b5d0eb67bb60 0x37d0333f0e532d0ddf1e3ab887522573bddcaf1b99c69ac3b88687d59f3a30c9 (-0x70dff4c370e616b678c55dd308ebcb46b7e6bb205daa08dadf1b0e4b22b5e53) (0x324a25d089156f140cab4b2216070c7c4fbf11dd06283fa9b9b0d40a6bfccb60) (-0x654cac447730e1486e94222a6900843654d64b7013cd6cb0909a3ee3aec823d1);
  Add 0 264 0x63ff4ab6b4d0df7163071401d864efba2afffba33009d1d851f7fd74f908fd56 0x1005bd636d9fc4bfde8d486c1809afe1b0c14172d164cc55f6476c4aa02c5914 0x382fb17efde57887625a1b13f1f69f5f3267715a772bf8de0c8688ef4d73e0f7 0x2d5d1d3e842a1aeaf4bc4d1d796605133f3b8ec7daf65121db5ea2d66a58a795 0x2b1581dfd978a081d8bf37824d50ee56f9a479d1f2fd8464c8c42b3039e5ec59 0x160945447b22e5335db2b14ef101e3caae8faa4662afe609df2221f035cdfb1d (-0x259a56c24607820aeeb5f4b822a67cc2bd4b8d724440a1aa55c69bcd75ca1004) (-0x71e1aa852a690ff3df1cae85a0765caa41266673cfb10d5e5cc3f391b64a1ddd);
  Dbl 0 0x5348c84ea0db8fcc124143c9f984a19ac0d736272255fa3f7af7d51129cf43fe 0x4423e3812dea798f6e955a6cb8548c485300a1d646be575f3b4c161c1bd0c261 (-0x540a7c8221ce79a7b5cdfd8a237e63e40b56ee8b1c0c3f3f72e8fbcda3f18531) (0x313f25dbedb6565a3f830cb1bb4a30799c66ab93c7b6d8d7e971c3b3d2e9a6d6) (-0x97607025c8c9060ed169bd0959d8ff7c5d1cfe8d3f97fba20879c1c69caf806f);
  Dbl 0 0x369bb1286e2c918f9f4493d92901031eeb7a37a23252b94e6aa4e2b601a15e21 0x26c9397c719f80dbdc8dc8a40693674d939540734bc7485350d64768eafa135d (-0x13c7f648f2eb8e6cde707029e41bef1908b38a48a5becae99b539e0061498dcb) (-0x31e9a01c528bd0701b59893a57925fbb261224efb4e8c9684ba3269f1509f6f4) (-0x85f8a2564e56722f421c9057c2a9039743e4673c1c9377293deea7cefac32973);
  Dbl 0 0x1209bb7c60dc58cb8dfd44c12a712bd52a64fe53e2b161ce27227d2e3f9fa6ab 0x5842f4e25705c0fc2735e72bfc3dc87e525cde83fdf1a5469a83b1cae489151 (-0xcbf23690a396db0bb80848de08feeee313daf9c128e70ac5d81ec24a76c9a99) (-0x2299b0ab5159c111defe949dba34fea69ff0b638d52c3a67a15b3afb5dc65fef) (-0x274b0bf5d809e74d7b279aad7824a83bf54c9087390d64a81368c81e443d32d9);
  Dbl 0 0x575ac0d7ce07fce0b7a28d7593359aee5638f5b084879bdf22c4168cdcd247d6 0x1131eaf9932be3016f05280a2a0a9247634997bffddfd3f73e50fa29e91a5001 (-0x28b4ded11cc1b4a6c52a46fc140761db3b8210499f91fb4ea2b53759ba35d2c) (0x3147e19b3e1944641e2ca319647d104839890e87fa9a4676f138f4fc6bf40582) (-0xd1b8860fdfcf1db6ca5136985dbce67faf330b119616c0f1d7f42bc595eb46c);
  Dbl 0 0x4a0bcc99e16457e6927061092c370631b7877d10faa429b7df87a37bccfdde8e 0x5eb484fe60b6286cb820675975ef76d923434768c9765b0208e060de451939a1 (-0x3f45e80689d3c410f998c6054bcd0a5fd7b8a2f1152fb9e16539b44a267f6895) (0x2840b6b8ed68f62b62ebacac019f49c3933b7b8de47822ef0e557ddedd43bd10) (-0x99003cf2aac66116037b709072ea58c559df471e307c521b9c4dcef0fe5de695);
  Add 0 270 0x5489e8fbbf1e006e3adbfc41509173f16ee27c7cb21563e8b6387abe9cb7182f 0x514cdc9f3461a0be408e80fd188e702c5cf8c3e3ae4e95220955afc6f9647398 0x28171c88181ac581de6b8d0e4f6003a13e97f32176f8b7c41d072a3923da41c2 0x4cf960929e768408b44f365cd0bf841c5a28c9b8458ec28c0e5c3ba929cc2939 0x32bdfef2753561ec29391200a700d5b9049dabfeeaea4bd1dc7a711ba3f17ca 0x122ea281ca86444d28365e94f96b0c10d7a9c4532c3465d496fc645d8440ed02 (-0x57d370e13eb7b952e37395f42661cba9bd99977b5c138226824d44948cee0761) (-0x8bcaaab31e3a645b615bb055a672226f91575fa36aa9e9eda4d0459588b3081d);
  Dbl 0 0x13ab2c7f963749ae28fbc0e5f03677fe72e4c00a1516abe2b0d6a3148f6fb93a 0x44d932ec333e4edea36ee1eb3a5254f1a9ca2360aaa82c63a94a1891b6563930 (-0x4a1fa77eaabada885722d18533e33146e23fb033b11d9e11a8c69c33fddce97) (-0x64f0b137c6c9b10217422628206456f936f411a509f2f382d0a2ecc75f331f94) (-0xb4635a001a2d10e9438b1fa81d37a187edb6a5f2dd10044a954988823fba60a1);
  Dbl 0 0x2785b7e8842b3f2f6fb0d1959b3226b32f744a30b2f65af8eaa0a51bf85d171 0x4bb7a46de5c445b729c1713a44eb50d1b57494c0b9bffd0b54429025d17e03c0 (0x258d1d21dc98cbc2e4a9ef922937e8686063ba59d25edc9626c91e1ecfec66ee) (-0x1512fafbab56290ea94deae40d84a05270f6b3dd2cbe38dca8f4d0dda50972b2) (-0x725a6bb584e8b8cc7d3208a924d294e4cd8cbe2ac00788cea7e12b37fdbabf24);
  Dbl 0 0x3a323c617d921aa45ece5e8e69e52176b96e8a8550e10cdccd9e0baeb7eafd74 0x42a973a2955646c0de78855fe57a16a8fa6a3834912b02a6d48acae8d2ba399f (0x3166beae891d05de204202a47c6d0fd8f66868820edd765e24fa09019ed792d7) (0x231b1ad5ca719b6bf84007f797ba5f899ee292e6ddc32779ac76932693e08d20) (-0x5d6a5474c88bc0c283ce9357fd99195b06a9325719db22932bdd76938fc95c5b);
  Dbl 0 0x22d99a85ea873ae3b33050780a686361abce08cbbadfef3aa6c11c1d74346ab2 0x54839033526fde3df8645a409a05c81898cf25e74af9e5285169b19675182fd1 (0x91e2763b76f344547079c322fd6bc6731ce88cd5bbf73f567b892d6a756bc08) (-0x30741d691132f65d57fd577aa2a5b8ddff1929122cf0fce557f904177c96f796) (-0x7059d21f5177c55e899cfddf20757591a9bf7d2d60572b69d0ad125f35126e28);
  Dbl 0 0x5446575db32df42cd046071c490d1764b91bf0e84d4322a2c50b39619ef49902 0x616374f07b39815e95856fd4b5cc848e806f0e38a7a365684d975df6f27f30f3 (0x3322bea6bae0ec60319645af679c1f7ae8decd454a1702637586d1c567cba34a) (0x9875d51b4e586a6a8493a4b74410b90198a7b1d8a9f54e40e5fcb4aa3df0b82) (-0x8dd1d48cd0e8417e1435040ba00ee428363837fff76756ee3e102aadfcf49908);
  Add 0 274 0x645640d171ad920476b958b322e316bcde47fe1a563d4a090ceecb8e6ae8cc2f 0x38a404d9d97ae36c84edd62c176f76a599850535f3ca02baf4dfe24c9af82966 0x2af64eb831fd538247a6d829c481d4c590062fad3e22683b18a2ed099c1923b9 0x1827a0ef5bd5884d9838b4df0b56b885570e15d5cee30656d2c2c8c4efb0dbb3 0x118a23fe7cbf9f67498b89dcab9c1e5390cbf6348c679b2f554861344ea8466e 0x10dc797aa46ba9e2cdb641a644a4622b2c0cc8d14f3c0bb7a5058b3d2bf0c819 (0xa2b101b26e9c2623b217be76bb95d3c0a91132f254622245843e74e50b9ec75) (-0x70aebbce433a12870467321c999edfd02c12bf84e577f56311f9c0b1a955db0c);
  Dbl 0 0x2aa70d7cdfd400bd46b16e298e651261614bb876c3a12d771b204d3e289d7ea 0x6c7464ea5fc649cdab3d89678eaa357cdb318a388d4eff67849a55212c0958b1 (-0x3b2b309a5339106ba643a2b35f7a50f7ff256e736a11200630631e023362f885) (-0x61f75472f37683c69690b08ac246c4d3cfa88d3b3efd0bb813c9be94d3b7f724) (-0x75c3c58b2904b575d23e0c26bcb5d7a0439dd9b3750ce0a8173093a8cd524deb);
  Dbl 0 0x4909f6526e45ae70937583a3d97a9042de996ff0012026a7f7892b73d57db0f6 0x27d1f13b0dccef2a93b2410d0d7931b64177a7948bd28e7a0cc1f79935e62243 (0x6566c93917591a2344b3880ee6108839e19741c4a4837d93d76583f6097739e7) (0x4277b6ad855e4283aaa1c4e7c07d19c7ac94ee74f1fde4a8f1e3a6cf9855b290) (-0x8c7b1dde2e12c255e192f43d4216b1b6838ce03dbb3b6b5223ed911257988501);
  Dbl 0 0x5efc2aa03daa3f78cf1797392ec0a7432ce67ba198230450e24e4de7b5503531 0x5cc020a48da800070b236dd231127cbef336ef50b3be436bb5c5f6e381b6be25 (-0x2056ddcef72ad838da530e51b43f3f689b53848be06e47890e690981d24ca3ad) (0x1d42368fd9223bb915c0affbe6f8ca999499531047f30f04232590483872bd6e) (-0x8942c886cb95f9d1b27de61768bd4e3c098fcf4124862ecb025eaae176daabfd);
  Dbl 0 0x11d989dab2345b4033154c44adadfc241d6174ac770a7a0a4758aba80105e5b1 0x5a0e9d42e562a8839d095f24d266382e0048bd735f218d860928d48d01b6cfde (-0x39e5da2f309b86f589fc840ba0169673144cbda774ebcc1c4080083f6d8567a) (-0x95ad9dc9965e2c24470b9881015f766bf95cf37b5f509c16ad0fee521b921f58) (-0xa3b0a38b07c5e7e60426a706dff7ef0128049a9246ce397bcd821b6e877ccdda);
  Add 0 283 0x2a835c1cedb36eeb63c0916460466031bcb978ad3bb4cfcb213a842463387ebc 0x51ea59bf13a63355d11c632e7b3a4ae5ca4473f4abcac99b7adf223c37f0041d 0x44aff49f86bd7fdca84274b3d967ebf808cd7e034ae2773685bb819e39489fb 0x1fdd91e9f823b5b276a8520e4f72cb4793ede6a67c3c487d781026c72d63d652 0x299a258addeed952ec00088d1d694cdd6dc3a39f11370b37ec610dbeb37b7cfe 0x2802ad86ea59a97d97ac0efc97fb91cd61c98b85b54c97d0472f58f476fa3061 (-0xc3e30ce725f38bda4e5f81bb7bc6283bf85acc29f221b74dc6ec3aa82a5c68a) (-0x4278bb3aa941ba74a1ebaa9f5aa39da503f50629c10f8a3bffb41b87200be2ed);
  Dbl 0 0x6df8c9e7d623afcce026cce21fe1079901fd86444c3c570a33f6b3c5b441faa7 0x2f90572ced2bb0761be80cc3276779653d1c6cb29223a88aa431567bf3feb8e6 (0x2a4a99945225d2d72db387e48536f9e539ee915b615d84f9bf28accc44c9d0f7) (0x150e708404dac1bcbfbb8fefd044ce0b5e85df66d60c59b58ae6d3eca9528876) (-0x6c9078d71759c3104435360ca503b8a733327e604b5b2d3dcd222d8dc565bed9);
  Dbl 0 0x448dcd9d879fb3deca6216eeede29fc771b023a836331ed045f9b32c55a1ebef 0x6c26f7920096f5aceea1ba70eea8b6fa717b448389e49fede7f41b548e951d (-0x54ce7c1093ed17bb7d1e900c9039c84012e2c1c8441b867fc482f707616df228) (-0x2db17f4e38a531079456c664771a6e525aed7060996f8f3aafe6d7265bfed59f) (-0x7c1c56a790d267aded28deacf392ec0d47ed6fc1072d7e7b5651b5158079f82a);
  Dbl 0 0x40f905405e0640626fc989ed436073ab5474c90e885ae3d3241192b3a875b94e 0x45343e26d3a8d7cd7d1adde93a82158f5f9357f91f7521045f96c7121a1807ed (-0x2889a2e3737447f163b33857c8e08e0e98a3bb3d7afd3d0ccb12269f2a96ac7f) (0x10f0d68a3074ef9c34824615985c2812e0efc26b6289136d43187da3d85d27bc) (-0x3b1df08875db4839c1a9e5cc884c10af324a5902974bf7857e43fb420139b22b);
  Dbl 0 0x1ca42f20b728a3069e5aac875d590974b350fdd345b4162df6e2c458065d39ec 0x253c0a76a5c7e92fa839ceb9b023d73fe0e457a733b2d20a53eb479b38f206f1 (0x4e5bbef12bd9cd9ba4322576f57faf2b84a7b33b8adbf825f4ee739a8195634) (-0x3e7aebc6935d77d7c3a10b61932caddcd604c06d37f67a5337ecf26151d7d940) (-0x615874005aa2998f6e707a8edfd9fd4471d47f4e01be91ba5f3da4482b4bdeac);
  Dbl 0 0x14f7ff04d7149ae19c6bd87b6989fdb29f939cb8db7aa8331fc94d9f591c159f 0x3b10bfa35647ee667c0b1d371e947c505d27b14394cbe2081e1910a68baf7ca5 (0x4e20fa2b997b015ed48080edb3f56c546afb1222434a3645aae2a1233e34511) (-0xaf30397d404e4e340b0152a2b9fee096a8d25cadb24700652a236d24eb3ae98) (-0x2804accd890398f4d0139afb12f0988e4fa2ca4125fa8b7deb6956594c982867);
  Dbl 0 0x1fee2c87d3acb63f5ab0a4792d6c7bbf313f466fc64543709cdee933421ff44a 0x63df40ed4db038faed2eabe9d2ae2a20afc287d5153cf0f0b6b69d152297fffb (0x1a4d115d9cb8784412e898c7e5ff7f828be2315353fd74f9dd7e7683f8732cf9) (-0x76c364490cc0bb1e56dff0f04e6943657e1fb6572965aa1b6e098c35bec1500) (-0x4d80849dd81e48b92b02a9f5f56fd838a095ed4f9a8e2142af6ee0a32003ac09);
  Add 0 288 0x3a20f23fcf716a942dcc8b95af264eea8724d03cd0be5a48bf8a9ccb89e9452d 0x599e6971067afeee481c95d60df2d4a405c307fcd29f0896b707f04c65f301c5 0x1149b03263cf3477b40c09b6bd503b048223d2fa1004f142f905b40495ecfbf4 0x512c76eb15b938072af658b1cf9fbd9fa7466cf8b25686d4fe4020f17769fd83 0x134c701a94655268daaaa488b8c4541e70febf1761a1c1c16c4382a065443c53 0x18f0f584322a2f126bc08e1b4d80766b4adc1adc43d0ad367009175b02a9fbb8 (-0x24202bb8fb6aec73f80f023d9cf595647c956227f5b848f6b956da462d62e566) (-0xa6249af58e438ab0f2df90b84f3dc5f163e3919c398b5d4d3d684b5433221c8b);
  Dbl 0 0xd4dd06eb06ab1100944f53ebf00f0e1961647aec1ef27901363fb9b2511b6dc 0x20d2fb1ad83a65f21069487bb00424be765a480e8469e5339da71d69da4466fb (0x28221e14eb45424ec2b8bc5b3084d36178d1f838d91e18eb32c8fbe42ec939ed) (-0x583db6345a75acc7134c57aa52d2f7c914229ee8e7d8d5f4068c6cf8f9499bae) (-0x66742bbc3c04fd55cdec0c8ce2ddea570d31b10b306a86a63c1c4d06ea49fdbd);
  Dbl 0 0x38520205018eaa14aff077e25f72d848ca8d0cf3d30a12f9aed0b6693280695a 0x231885b49a92d3e9f72a76c52e88e5375bde6483889251fe9536785bb4dbe891 (0x7c461d60755f8bfea517e5a53a652ab589d26d323572620bf629ce1845d8a5e) (-0x441af4ff5a1f09ac5aefa8ee7bbe146d78341e567ca3a1f2683af98ca92104a) (-0xcdce33874615e8cfee5d6d8f2f59b7ee3d3235acec627aa89d18242933810e2);
  Dbl 0 0x4d58be2cbacf508be0695fc2bc4d516de9e85ceb8e0d4236efdbe848cba4c367 0x57d8b7c76953e23057e53d11de98ccadd4dca3f84058fc7d2a68918b4e1a6483 (-0x10bc9d5c98e91a3c925439f7725173dddc12694d0df617f46c96a67c9d5d30df) (0x15d3fe1562d9dfb985d81bcf1da255c93e54da6490ca4ee2bd350327378bfa10) (-0x6581e0555b7cf8c7a1c7a8429cfc6a4f6c643dba1d352f76bc09447f16e908d3);
  Dbl 0 0x73692143219517818d3db5a8e38144960643cc8833d99f3b0a868f11eeb5be3b 0xacad0e21ff4f1fe62c2a3846285bb517eee25cfdda5df45f820016c265158a8 (0xef64190312d674caa42f412eddfd8ab142ee1f836f9e708c49b8361385ae2c5) (-0xc8d91e21dadbe57c1917c56355afe6521ca79ce5f417ef9c68458f4a347dcc9) (-0x7ff5c5a8b9d76b099ae272948b0370469823cb95b9027e3de99c6a7e62cdafa2);
  Dbl 0 0x674ab07c6c2d02e0ee815966225a3bf61249aaf7c37239968d32856a3ef74696 0x71b5c681d10820de38eeaf8c3cd6193765598671282fbe8df9fd058adf70309b (-0x71e3fefb389acba184df7ebb9dff0c97e55b7eb483a6342eed9c552bb191ac1a) (0x469ca2122eb22b0ce131c5a05a202ee715397663a8c65aff6ab24dcc1d1749a6) (-0xd94a18340173567581f67e1390b1c50826425038816c7e50dbee27343b80fb7e);
  Dbl 0 0x1be1743d46e5d65abcb003785a2fffc60fe104470b8532ce152c0e367affab47 0x2322c28b3f668cab09476b42c1b41f3aff38c33125b00615add36915e5def8db (0x13806a940b1ea2d6a15b9b13a3703572479a32eb1015ed76270fd91185e5ccf5) (-0xba91ba19bc5a1998ec23f6ebe76664de8370e33579c4bdd12805aa607f3042a4) (-0xdfcec071da0b35f76278dfdffbd96d1a18c2d35ff15b7c3b5e8f4bd3d1523707);
  Add 0 295 0x6dbb3608af10511aa825013b35c1ad028f45c4e929c0cd9f247ad92601d67b2e 0x1f2921aa2e265d6587ea1606c468cf337620e4aabd33a4af036516825b22a3db 0xf18624b507d4c85ed540a7725704313975ede734d15449308a1dc44c23c3a7a 0x1c8ebae5afb5c2db1546df1841d7e9468e6749cd034673833b5ce5f85ec7067f 0x2b14051fc326dda887f3a0a8ea731833c081cac9f6e70453e6fb93197c054748 0x75ba42dc1ad7eac2c80305f00ee9cafec9755c9dd2ae5e2c0f24af99e241a4a (0x26407e5421564a91b90207d2044d4a1b3df3adba1d96f9d0e14e952afaba2291) (-0x425a38470884af7d569b6d4e2e8d68f8822df4b4441cc81cdd83fc73bd6135bc);
  Dbl 0 0x282245e368fe1a2202e57409b7363534c7cc3e1efd9cb51b0eda59e18dd88d78 0x2fd8f0f2e9e91723cbd972d59e6f136aa4f58d627770e346e0b8c7ae6b27d8c3 (-0x5f7d6136a8dfe92b855297dada2015a5d979618659e3953308133b86615ebc77) (-0x18a6dde14ebb3afccea8d7f0e700da05337afabe78777d9b5d9b842d24875f14) (-0x992dd16b5d6a66c4a95ef865cc8da5adcd7e7990b23db34bc01011c9dd7cc9bb);
  Dbl 0 0x3e2b0511b8fb7656af8c3be3de0f6fd7b13be8c726cccb596b99a36aa7730912 0x6144e12a812c52778829b1a934f5ddae1dd22f1517f51933f0eabced14270006 (0x5daa1bc9828315e40f38dbffdb6ca29fbc4ffd3dc32e69f5615fcaae4f1e342) (0x2c76cbccd8e4afc01255f8f0d837b492f90d969dc500ee5160ca71859027cae) (-0x59d3257be11c1486c97acba1424f287cc82004fe5313b75c1252f071dd5e22e7);
  Dbl 0 0x165ec9779e891d8baaa311fb7121489045f33de9a5b93e9403d0d7765757edf7 0x164c4656087ae2aad87da24c815378189fc00509f6f9d1e64a3db23559f204a4 (0x304651fb3ea241ab1f59db14279b34a0cbd617d14b2c471bc2c5246ebb987ec5) (-0x528b06242815eb07f809e6110e54fac6cb81571f185980b859198fb016796fcb) (-0x88a95d304ab8b6bbfd9f76ceb328694620abfdf3aaaaa20d9c953c7eaf1f296c);
  Dbl 0 0x273dcfbd69861b1b3b3a252c04f291397849afd8f643c107348cbeaa25a7bf4c 0xe359c510866d1795e503d2415298f14665a7109f24aef1c9d4aee20dd724036 (-0x72207702589fb1a088a2aebc637e31f597f205d0b197306ac708af382f410) (0xdc1734fbb22bfd7de8dcdb79ad377947fd417e0998af69f1e35adcbe00bb1fc) (-0x10b3dc443ca769608b458301adf63491fcdcf6ea003701e96418dff6d4c6089f);
  Add 0 302 0x218c81a6eff03d4488ef781683bbf33d919893ec24fd67c26d19585d8dff2be 0x2a94e9a11036e51a1c98a7d25c54659ec2b6b5720c79b75d00f2df96100b6924 0x970119631cb5d9ad646bb9d6e43fc7ad1f0080a496a06deb8655d7cbb71a0b9 0x5071eceeabe063a771d92cdd3aa0b7202dcdfefa52e236e648155dc410419f2 0x23b453f5c6a872d91ab8fa81d13805074b0811a68054cde7d2736f002ee73d45 0x10b1280b656415060e2291cad51fc6016dd388b8b7e9ed555c70d91a9c51571b (-0x112e3db56fa9b95f0c4e7a9aedee221b7bc2d1e07b7041cc9bde0f29348a6f4c) (-0x10f0cc7c78aca99ad7747d3c6b4d3118c19ed696b2fe2e10e838983fce94e8a8);
  Dbl 0 0x73eda753299d7d47a5e80b39939ed33467baa40089fb5bfefffeffff00000001 0 (0xf9a4f7823af4b9099e0599a70c18ffc2ea11fa786380aa4fcbec8f1f2d4434e) (0x73b243cfd8543395500c61c93a3999b9969dcb73dee027e6a84ac0203d2634e) (-0xfadba609757c8af956c55e7ddac26bec47e73d8185e5ad41c4dc0e021765214);
  Dbl 0 0 0x73eda753299d7d483339d80809a1d80553bda402fffe5bfeffffffff00000000 (-0x73eda753299d7d4718963e6b1d9bce6427fd47ff13fa0000fffe000000000002) (0) (-0x73eda753299d7d4718963e6b1d9bce6427fd47ff13fa0000fffe000000000001);
  Dbl 0 0 1 (0x73eda753299d7d483339d80809a1d80553bda402fffe5bfefffffffeffffffff) (0) (-0x73eda753299d7d483339d80809a1d80553bda402fffe5bfefffffffeffffffff)].
