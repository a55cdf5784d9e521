-Q theories Verif
theories/Coeff.v
theories/MatSpec.v
theories/MatLemmas.v
theories/KronLemmas.v
theories/FockSpec.v
theories/OpSpec.v
theories/PauliModel.v
theories/PauliProofs.v
theories/OperatorModel.v
theories/OperatorProofs.v
theories/OpTotal.v
theories/FermiModel.v
theories/FermiProofs.v
theories/TransformModel.v
theories/TwoTerm.v
theories/JWProofs.v
theories/QubitProofs.v
theories/AdjProofs.v
theories/TransformLin.v
theories/OperatorHeap.v
theories/HeapSpec.v
theories/HeapProofs.v
theories/CommProofs.v
theories/TraceSpec.v
theories/TraceProofs.v
theories/EncSpec.v
theories/EncProofs.v
theories/ParityProofs.v
theories/BKProofs.v
theories/ParityMore.v
theories/CircuitSpec.v
theories/CircuitModel.v
theories/CircuitProofs.v
theories/CircuitProofs2.v
theories/InitProofs.v
theories/TomoModel.v
theories/TomoProofs.v
theories/CountsProofs.v
theories/Sqrt2.v
theories/RdmModel.v
theories/RdmSpec.v
theories/RdmEnum.v
theories/RdmPerm.v
theories/RdmFock.v
theories/RdmBuild.v
theories/RdmProofs.v
theories/RdmWedge.v
theories/OptModel.v
theories/OptSpec.v
theories/OptProofs.v
theories/OptProofs2.v
theories/OptProofs3.v
theories/StabModel.v
theories/StabSpec.v
theories/StabProofs.v
theories/StabProofs2.v
theories/StabProofs3.v
theories/StabProofs4.v
theories/TaperModel.v
theories/TaperSpec.v
theories/TaperProofs.v
theories/TaperProofs2.v
theories/TaperProofs3.v
theories/InvModel.v
theories/InvSpec.v
theories/InvProofs.v
theories/OrderModel.v
theories/OrderSpec.v
theories/OrderProofs.v
theories/Prop_Inv.v
theories/Prop_Order.v
theories/HamModel.v
theories/HamSpec.v
theories/HamProofs.v
theories/HamProofs2.v
theories/HamProofs3.v
theories/HamProofs4.v
theories/HamProofs5.v
theories/Prop_Ham.v
theories/Prop_Stab.v
theories/Prop_Taper.v
theories/Prop_Pauli.v
theories/Prop_Operator.v
theories/Prop_Fermi.v
theories/Prop_JW.v
theories/Prop_Heap.v
theories/Prop_Trace.v
theories/Prop_Parity.v
theories/Prop_Circuit.v
theories/Prop_Tomo.v
theories/Prop_Rdm.v
theories/Prop_Opt.v
theories/ToolsModel.v
theories/ToolsSpec.v
theories/ToolsProofs.v
theories/ToolsProofs2.v
theories/Prop_Tools.v
theories/AcseModel.v
theories/LineModel.v
theories/AcseSpec.v
theories/AcseProofs.v
theories/AcseProofs2.v
theories/AcseProofs3.v
theories/LineProofs.v
theories/Prop_Acse.v
theories/BfgsModel.v
theories/BfgsSpec.v
theories/BfgsProofs.v
theories/BfgsProofs2.v
theories/CgProofs.v
theories/BfgsExample.v
theories/Prop_Bfgs.v
theories/ResSpec.v
theories/ResModel.v
theories/ResProofs.v
theories/ResProofs2.v
theories/ResProofs3.v
theories/ResProofs4.v
theories/ResNorm.v
theories/ResNormProofs.v
theories/ResExample.v
theories/Prop_Residual.v
theories/HeapDelete.v
theories/PauliBasis.v
theories/VqeSpec.v
theories/VqeModel.v
theories/VqeProofs.v
theories/VqeProofs2.v
theories/VqeProofs3.v
theories/VqeProofs4.v
theories/Prop_Vqe.v
theories/CircSpec2.v
theories/CircModel.v
theories/CircModel2.v
theories/CircSpec3.v
theories/CircProofs1.v
theories/CircProofs2.v
theories/CircProofs3.v
theories/CircProofs4.v
theories/CircProofs5.v
theories/Prop_Circ.v
theories/RdmObjModel.v
theories/RdmObjSpec.v
theories/RdmObjProofs1.v
theories/RdmObjProofs2.v
theories/RdmObjProofs3.v
theories/RdmObjProofs4.v
theories/RdmObjProofs5.v
theories/RdmObjProofs6.v
theories/RdmObjProofs7.v
theories/Prop_RdmObj.v
theories/QRdmModel.v
theories/QRdmSpec.v
theories/QRdmProofs1.v
theories/QRdmProofs2.v
theories/QRdmProofs3.v
theories/Prop_QRdm.v
theories/IntsModel.v
theories/IntsSpec.v
theories/IntsProofs1.v
theories/IntsProofs2.v
theories/IntsProofs3.v
theories/IntsProofs4.v
theories/IntsProofs5.v
theories/Prop_Ints.v
theories/BfgsProofs3.v
theories/SymSpec.v
theories/SymModel.v
theories/SymProofs1.v
theories/SymProofs2.v
theories/SymProofs3.v
theories/SymProofs4.v
theories/SymProofs5.v
theories/SymProofs6.v
theories/Prop_Sym.v
theories/SfModel.v
theories/SfProofs.v
theories/Prop_Sf.v
theories/W2Model.v
theories/W2Proofs.v
theories/W2Proofs2.v
theories/W2Proofs3.v
theories/Prop_W2.v
theories/GBfgsModel.v
theories/GBfgsSpec.v
theories/GBfgsProofs.v
theories/GBfgsProofs2.v
theories/GBfgsProofs3.v
theories/GBfgsProofs4.v
theories/GBfgsProofs5.v
theories/Prop_GBfgs.v
theories/ItModel.v
theories/ItSpec.v
theories/ItProofs.v
theories/Prop_It.v
theories/AdaptModel.v
theories/AdaptSpec.v
theories/AdaptProofs.v
theories/AdaptProofs2.v
theories/Prop_Adapt.v
theories/StoreModel.v
theories/StoreSpec.v
theories/StoreProofs.v
theories/Prop_Store.v
theories/MitModel.v
theories/MitSpec.v
theories/MitProofs.v
theories/Prop_Mit.v
theories/ParaModel.v
theories/ParaProofs.v
theories/Prop_Para.v
theories/QHamModel.v
theories/QHamProofs.v
theories/Prop_QHam.v
theories/RhoModel.v
theories/RhoSpec.v
theories/RhoProofs.v
theories/Prop_Rho.v
theories/OpMoreModel.v
theories/OpMoreSpec.v
theories/OpMoreProofs.v
theories/Prop_OpMore.v
theories/ComplexR.v
theories/QuantModel.v
theories/QuantSpec.v
theories/QuantProofs.v
theories/QuantProofs2.v
theories/QuantProofs3.v
theories/QuantProofs4.v
theories/QuantExample.v
theories/Prop_Quant.v
theories/UtilModel.v
theories/UtilSpec.v
theories/UtilSpec2.v
theories/UtilProofs.v
theories/UtilProofs2.v
theories/UtilProofs3.v
theories/Prop_Util.v
theories/PlanModel.v
theories/PlanSpec.v
theories/PlanProofs.v
theories/PlanProofs2.v
theories/PlanProofs3.v
theories/PlanProofs4.v
theories/PlanProofs5.v
theories/PlanProofs6.v
theories/Prop_Plan.v
theories/ConsModel.v
theories/ConsSpec.v
theories/ConsProofs.v
theories/ConsProofs2.v
theories/ConsProofs3.v
theories/ConsProofs4.v
theories/Prop_Cons.v
theories/EulerSpec.v
theories/EulerModel.v
theories/EulerProofs.v
theories/EulerProofs2.v
theories/KeyProofs.v
theories/EulerProofs3.v
theories/EulerProofs4.v
theories/EulerExample.v
theories/Prop_Euler.v
theories/GBfgsProofs6.v
theories/ShapeSpec.v
theories/ShapeProofs.v
theories/ShapeProofs2.v
theories/JwShape.v
theories/LayerSpec.v
theories/LayerProofs.v
theories/LayerProofs2.v
theories/LayerProofs3.v
theories/LayerProofs4.v
theories/EmbProofs.v
theories/LayerExample.v
theories/Prop_Layer.v
theories/IterModel.v
theories/IterSpec.v
theories/IterProofs.v
theories/IterProofs2.v
theories/IterProofs3.v
theories/IterProofs4.v
theories/IterProofs5.v
theories/IterExample.v
theories/Prop_Iter.v
theories/ScModel.v
theories/ScSpec.v
theories/ScProofs1.v
theories/ScProofs2.v
theories/ScProofs3.v
theories/ScProofs4.v
theories/ScProofs5.v
theories/ScProofs6.v
theories/Prop_Sc.v
theories/AdaptProofs3.v
theories/AdCircModel.v
theories/AdCircSpec.v
theories/AdaptProofs4.v
theories/Prop_AdCirc.v
theories/RotSpec.v
theories/RotProofs.v
theories/RotProofs2.v
theories/Prop_Rot.v
theories/TrigSpec.v
theories/TrigProofs.v
theories/GradModel.v
theories/TrigProofs2.v
theories/TrigProofs3.v
theories/Prop_Trig.v
theories/ScProofs7.v
theories/CholSpec.v
theories/CholModel.v
theories/CholProofs.v
theories/CholProofs2.v
theories/GivSpec.v
theories/GivModel.v
theories/GivProofs.v
theories/Prop_Chol.v
theories/CmpModel.v
theories/CmpProofs.v
theories/Prop_Cmp.v
theories/BatchModel.v
theories/BatchProofs.v
theories/Prop_Batch.v
theories/ErrModel.v
theories/ErrSpec.v
theories/ErrProofs.v
theories/Prop_Err.v
theories/SepModel.v
theories/SepProofs.v
theories/Prop_Sep.v
theories/ShotSpec.v
theories/ShotModel.v
theories/ShotProofs.v
theories/ShotProofs2.v
theories/Prop_Shot.v
theories/VarModel.v
theories/VarSpec.v
theories/VarProofs.v
theories/Prop_Var.v
theories/RtomModel.v
theories/RtomProofs.v
theories/RtomProofs2.v
theories/RtomProofs3.v
theories/Prop_Rtom.v
theories/ProjModel.v
theories/ProjProofs.v
theories/ProjProofs2.v
theories/ProjProofs3.v
theories/Prop_Proj.v
theories/CholOpSpec.v
theories/CholOpModel.v
theories/CholOpProofs.v
theories/Prop_CholOp.v
theories/AnaSpec.v
theories/AnaModel.v
theories/AnaProofs.v
theories/AnaProofs2.v
theories/Prop_Ana.v
theories/QtomModel.v
theories/QtomProofs.v
theories/QtomProofs2.v
theories/Prop_Qtom.v
theories/ReportModel.v
theories/ReportProofs.v
theories/Prop_Report.v
theories/InterpModel.v
theories/InterpSpec.v
theories/InterpProofs.v
theories/Prop_Interp.v
theories/IclModel.v
theories/IclSpec.v
theories/IclProofs.v
theories/Prop_Icl.v
theories/IclProofs2.v
theories/SpecialModel.v
theories/SpecialSpec.v
theories/SpecialProofs.v
theories/Prop_Special.v
theories/LrModel.v
theories/LrSpec.v
theories/LrProofs.v
theories/Prop_Lr.v
theories/UpBlockModel.v
theories/UpBlockProofs.v
theories/Prop_UpBlock.v
