-Q theories Verif
theories/Base/Prelude.v
theories/Model/Cache.v
theories/Model/Cond2D.v
theories/Model/CondCmom1.v
theories/Model/CppMom.v
theories/Model/Csv.v
theories/Model/Decode.v
theories/Model/Dpoly.v
theories/Model/Dpoly2.v
theories/Model/Euler.v
theories/Model/FZ.v
theories/Model/Fsv1.v
theories/Model/Fsv1j.v
theories/Model/Fsv2.v
theories/Model/ItoCond.v
theories/Model/ItoMom.v
theories/Model/ItosMom.v
theories/Model/Loop.v
theories/Model/Nest.v
theories/Model/Poly.v
theories/Model/Scalar.v
theories/Model/ScalarD.v
theories/Model/SrjdCond.v
theories/Model/SrjdCond2.v
theories/Model/SrjdIez.v
theories/Model/SrjdStat.v
theories/Model/SvcjCond.v
theories/Model/SvcjCond2.v
theories/Model/SvcjIez.v
theories/Model/SvcjMom.v
theories/Model/Svvj.v
theories/Model/Txt.v
theories/Model/Utils.v
theories/Proof/AnyRhoProofs.v
theories/Proof/BinConv.v
theories/Proof/CacheFacts.v
theories/Proof/Calc.v
theories/Proof/Chi2Mom.v
theories/Proof/ClassifyProofs.v
theories/Proof/Cond2DEnd.v
theories/Proof/Cond2DProofs.v
theories/Proof/Cond2DThm.v
theories/Proof/CondCmom1Proofs.v
theories/Proof/Consist.v
theories/Proof/ConvProofs.v
theories/Proof/CppProofs.v
theories/Proof/CsvProofs.v
theories/Proof/DecodeProofs.v
theories/Proof/Dpoly2Proofs.v
theories/Proof/DpolyProofs.v
theories/Proof/EulerGrid.v
theories/Proof/EulerMart.v
theories/Proof/EulerProofs.v
theories/Proof/EulerSrjd.v
theories/Proof/EulerSv.v
theories/Proof/EvenKeys.v
theories/Proof/ExpectFacts.v
theories/Proof/Fsv1Proofs.v
theories/Proof/Fsv2Proofs.v
theories/Proof/Fsv2jProofs.v
theories/Proof/IntEt.v
theories/Proof/IntEt2.v
theories/Proof/IntEtFZ.v
theories/Proof/ItoCondEx.v
theories/Proof/ItoCondInt.v
theories/Proof/ItoCondProofs.v
theories/Proof/ItoCondTable.v
theories/Proof/ItoProofs.v
theories/Proof/ItosProofs.v
theories/Proof/ItosTable.v
theories/Proof/JumpSum.v
theories/Proof/JumpTimes.v
theories/Proof/KeyInv.v
theories/Proof/Laurent.v
theories/Proof/LoopFacts.v
theories/Proof/MgfTree.v
theories/Proof/MomentV.v
theories/Proof/MonTac.v
theories/Proof/Nested.v
theories/Proof/Nested2.v
theories/Proof/Parity.v
theories/Proof/Parity2.v
theories/Proof/Parity3.v
theories/Proof/ParityV.v
theories/Proof/PolyFacts.v
theories/Proof/PolyProofs.v
theories/Proof/Realise.v
theories/Proof/Recur.v
theories/Proof/ScalarDProofs.v
theories/Proof/ScalarProofs.v
theories/Proof/Seq3.v
theories/Proof/SrjdAna.v
theories/Proof/SrjdCond2Proofs.v
theories/Proof/SrjdCond2V.v
theories/Proof/SrjdCondProofs.v
theories/Proof/SrjdCondV.v
theories/Proof/SrjdExact.v
theories/Proof/SrjdIezProofs.v
theories/Proof/SrjdStatAna.v
theories/Proof/SrjdStatProofs.v
theories/Proof/StackProofs.v
theories/Proof/Stationary.v
theories/Proof/SumFacts.v
theories/Proof/SvcjAna.v
theories/Proof/SvcjCond2Proofs.v
theories/Proof/SvcjCond2W.v
theories/Proof/SvcjCondProofs.v
theories/Proof/SvcjCondRec.v
theories/Proof/SvcjCondTable.v
theories/Proof/SvcjIezProofs.v
theories/Proof/SvcjIezTable.v
theories/Proof/SvcjMgf.v
theories/Proof/SvcjMomProofs.v
theories/Proof/SvcjStatProofs.v
theories/Proof/SvcjTree.v
theories/Proof/SvvjMomProofs.v
theories/Proof/SvvjProofs.v
theories/Proof/SvvjSimp.v
theories/Proof/SvvjThm.v
theories/Proof/SvvjW.v
theories/Proof/Third2.v
theories/Proof/TimeUnit.v
theories/Proof/TimeUnit2.v
theories/Proof/TimeUnitV.v
theories/Proof/TxtProofs.v
theories/Proof/Umbral.v
theories/Proof/UtilsProofs.v
theories/Proof/VolterraFacts.v
theories/Proof/VolterraJump.v
theories/Props/Props1fsv.v
theories/Props/Props1fsvj.v
theories/Props/Props2fsv.v
theories/Props/PropsAnyRho.v
theories/Props/PropsCentral.v
theories/Props/PropsClosed.v
theories/Props/PropsClosedJ.v
theories/Props/PropsCond1.v
theories/Props/PropsCond2Dict.v
theories/Props/PropsCondVar.v
theories/Props/PropsCpp.v
theories/Props/PropsCsv.v
theories/Props/PropsDecode.v
theories/Props/PropsDict.v
theories/Props/PropsDpoly.v
theories/Props/PropsDpoly2.v
theories/Props/PropsDrift.v
theories/Props/PropsDriftCov.v
theories/Props/PropsEuler.v
theories/Props/PropsEulerSrjd.v
theories/Props/PropsEulerSv.v
theories/Props/PropsEulerUpto.v
theories/Props/PropsEven.v
theories/Props/PropsGuards.v
theories/Props/PropsIto.v
theories/Props/PropsItoCond.v
theories/Props/PropsItos.v
theories/Props/PropsLimits.v
theories/Props/PropsMalformed.v
theories/Props/PropsMerton.v
theories/Props/PropsNames.v
theories/Props/PropsNested.v
theories/Props/PropsNested2.v
theories/Props/PropsOrder0.v
theories/Props/PropsPathVar.v
theories/Props/PropsPoly.v
theories/Props/PropsScalar.v
theories/Props/PropsSigns.v
theories/Props/PropsSrjd.v
theories/Props/PropsSrjdCond.v
theories/Props/PropsSrjdCond2.v
theories/Props/PropsSrjdStat.v
theories/Props/PropsSvcj.v
theories/Props/PropsSvcjCond.v
theories/Props/PropsSvcjCond2.v
theories/Props/PropsSvcjMom.v
theories/Props/PropsSvvj.v
theories/Props/PropsThird2.v
theories/Props/PropsTimeUnit.v
theories/Props/PropsTxt.v
theories/Props/PropsUtils.v
theories/Props/PropsZero.v
theories/Spec/AnyRho.v
theories/Spec/Chi2.v
theories/Spec/Cond1.v
theories/Spec/Cond2Dict.v
theories/Spec/Consist.v
theories/Spec/Cpp.v
theories/Spec/Csv.v
theories/Spec/Dict.v
theories/Spec/Euler.v
theories/Spec/Eval.v
theories/Spec/Expect.v
theories/Spec/FZSpec.v
theories/Spec/Fsv1.v
theories/Spec/Fsv2.v
theories/Spec/Gamma.v
theories/Spec/Ito.v
theories/Spec/Ito2.v
theories/Spec/JumpPath.v
theories/Spec/Names.v
theories/Spec/Params.v
theories/Spec/Returns1.v
theories/Spec/Signs.v
theories/Spec/Srjd.v
theories/Spec/SrjdPath.v
theories/Spec/Sums.v
theories/Spec/Svcj.v
theories/Spec/SvcjPath.v
theories/Spec/Svvj.v
theories/Spec/Units.v
theories/Spec/Volterra.v
