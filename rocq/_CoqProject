-Q theories Verif
theories/Base.v
theories/FieldM.v
theories/FieldP.v
theories/ExprM.v
theories/BuilderM.v
theories/GadgetsM.v
theories/CryptoM.v
theories/Spec.v
theories/ExprP.v
theories/BitsP.v
theories/MonoP.v
theories/LocalP.v
theories/SoundP.v
theories/CmpP.v
theories/GadgetSoundP.v
theories/HonestP.v
theories/ExecP.v
theories/CoreP.v
theories/CompleteP.v
theories/CmpCompleteP.v
theories/GadgetCompleteP.v
theories/SatP.v
theories/ForgeP.v
theories/BinUtilP.v
theories/Demo.v
theories/PropLib.v
theories/PrimeP.v
theories/CurveM.v
theories/WaksmanM.v
theories/SpecCurve.v
theories/EdwardsP.v
theories/ProjP.v
theories/ChainP.v
theories/CurveP.v
theories/BimapP.v
theories/RouteP.v
theories/SettleP.v
theories/PropsCurve.v
theories/PropsSchnorr.v
theories/GadgetCostP.v
theories/PropsCost2.v
theories/ProgramM.v
theories/ProgramP.v
theories/PropsProgram.v
theories/SpecCrypto.v
theories/CryptoP.v
theories/SpongeP.v
theories/MatrixP.v
theories/MiscP.v
theories/PropsBasic.v
theories/PropsBinary.v
theories/ArithP.v
theories/PropsArith.v
theories/CostP.v
theories/PropsCost.v
theories/PropsCore.v
theories/PropsCrypto.v
theories/WaksmanP.v
theories/SortP.v
theories/AcceptP.v
theories/PropsWaksman.v
theories/PropsBuilder.v
theories/PropsExact.v
theories/RoundsM.v
theories/RoundsP.v
theories/PropsRounds.v
theories/DisplayM.v
theories/DisplayP.v
theories/PropsDisplay.v
theories/ReadmeM.v
theories/PropsReadme.v
theories/PropsMix.v
theories/RefuseP.v
theories/DetP.v
theories/PropsDet.v
theories/FlowP.v
theories/PropsFlow.v
theories/PropsInputs.v
theories/PolyP.v
theories/PropsDefaults.v
theories/PropsRest.v
theories/PropsOrder.v
theories/PropsRepair.v
theories/PropsCost3.v
theories/LibraryM.v
theories/LibraryP.v
theories/ComponentsP.v
theories/PropsLibrary.v
theories/SpecUnique.v
theories/UniqueP.v
theories/CmpUniqueP.v
theories/TightP.v
theories/PropsUnique.v
theories/SpecDecide.v
theories/DecideP.v
theories/PropsDecide.v
theories/NonceP.v
theories/PropsSign.v
theories/PropsCompare.v
theories/LcgP.v
theories/PropsLcg.v
theories/PropsCollide.v
theories/WiresP.v
theories/PropsWires.v
theories/PropsFloat.v
theories/RepoTests.v
theories/TickP.v
theories/TickCallsP.v
theories/PropsPasses.v
theories/PropsCyclic.v
theories/PropsReuse.v
theories/PropsDepth.v
theories/PropsLinear.v
theories/SpecRename.v
theories/RenameP.v
theories/RenameCallsP.v
theories/PropsRename.v
theories/SpecOrder.v
theories/OrderP.v
theories/PropsModulus.v
theories/PropsExchange.v
theories/PropsCarry.v
theories/PropsUpdate.v
theories/PropsTwice.v
theories/PropsChecked.v
theories/PropsSets.v
theories/PropsNonStrict.v
theories/PropsSafeCurve.v
theories/PropsAccess.v
theories/PropsPadding.v
theories/PropsAnyGroup.v
theories/PropsDiffuse.v
theories/PropsUndo.v
theories/PropsRescueMix.v
theories/PropsAnySbox.v
theories/PropsSize.v
