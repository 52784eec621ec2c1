-Q theories Verif
theories/Vec3.v
theories/Spatial.v
theories/Inertia.v
theories/InertiaFacts.v
theories/Spec_Spatial.v
theories/SpatialFacts.v
theories/Prop_Spatial.v
theories/Deriv.v
theories/Joints.v
theories/Spec_Joints.v
theories/JointFacts.v
theories/JointFacts2.v
theories/Prop_Joints.v
theories/Model.v
theories/Spec_Model.v
theories/ModelFacts.v
theories/ModelTree.v
theories/ModelFacts2.v
theories/ModelEq.v
theories/ModelFacts3.v
theories/Prop_Model.v
theories/Data.v
theories/Spec_Kin.v
theories/Kinematics.v
theories/KinFacts.v
theories/KinFacts2.v
theories/KinFacts3.v
theories/Prop_Kin.v
theories/Sums.v
theories/Spec_Dyn.v
theories/Rnea.v
theories/DynFacts.v
theories/DynFacts2.v
theories/Prop_Dyn.v
theories/TreeSums.v
theories/Spec_Mass.v
theories/MassFacts.v
theories/Crba.v
theories/CrbaFacts.v
theories/CrbaFacts2.v
theories/CrbaFacts3.v
theories/CrbaFacts4.v
theories/Prop_Crba.v
theories/Spec_Aba.v
theories/Aba.v
theories/AbaCore.v
theories/AbaFacts.v
theories/AbaJoints.v
theories/AbaFacts2.v
theories/AbaFacts3.v
theories/AbaInv.v
theories/AbaFacts4.v
theories/Prop_Aba.v
theories/Spec_Jac.v
theories/Jacobian.v
theories/JacFacts.v
theories/JacFacts2.v
theories/JacFacts3.v
theories/JacFacts4.v
theories/JacFacts5.v
theories/JacFacts6.v
theories/JacFacts7.v
theories/Prop_Jac.v
theories/Spec_Com.v
theories/Com.v
theories/ComFacts.v
theories/ComFacts2.v
theories/ComFacts3.v
theories/ComFacts4.v
theories/Centroidal.v
theories/CentFacts.v
theories/CentFacts2.v
theories/ComFacts5.v
theories/ComFacts6.v
theories/Prop_Com.v
theories/Geometry.v
theories/Spec_Geom.v
theories/GeomFacts.v
theories/GeomFacts2.v
theories/GeomFacts3.v
theories/GeomFacts4.v
theories/Prop_Geom.v
theories/Cone.v
theories/Spec_Cone.v
theories/ConeFacts.v
theories/Prop_Cone.v
theories/Parallel.v
theories/Spec_Par.v
theories/ParFacts.v
theories/ParFacts2.v
theories/ParFacts3.v
theories/ParFacts4.v
theories/Prop_Par.v
theories/Rot.v
theories/Spec_Rot.v
theories/RotFacts.v
theories/ExpLog.v
theories/Spec_Exp.v
theories/ExpFacts.v
theories/ExpFacts2.v
theories/ExpFacts3.v
theories/ExpFacts4.v
theories/ExpFacts5.v
theories/Prop_Rot.v
theories/LieGroup.v
theories/Spec_Lie.v
theories/LieFacts.v
theories/LieFacts2.v
theories/LieFacts3.v
theories/LogFacts.v
theories/LogFacts2.v
theories/LogFacts3.v
theories/LogFacts4.v
theories/LieFacts4.v
theories/LieFacts5.v
theories/LieFacts6.v
theories/LieFacts7.v
theories/LieFacts8.v
theories/LieFacts9.v
theories/LieFacts10.v
theories/Prop_Lie.v
theories/Cholesky.v
theories/Spec_Chol.v
theories/CholFacts.v
theories/CholFacts2.v
theories/CholFacts3.v
theories/CholFacts4.v
theories/CholFacts5.v
theories/Prop_Chol.v
theories/Regressor.v
theories/Spec_Reg.v
theories/RegFacts.v
theories/RegFacts2.v
theories/RegFacts3.v
theories/RegFacts4.v
theories/Prop_Reg.v
theories/Dccrba.v
theories/DccrbaFacts.v
theories/DccrbaFacts2.v
theories/DccrbaFacts3.v
theories/Prop_Dccrba.v
theories/Spec_Lin.v
theories/Tri.v
theories/TriFacts.v
theories/Lanczos.v
theories/LanFacts.v
theories/PowFacts.v
theories/MathFacts.v
theories/MathFacts2.v
theories/Prop_Math.v
theories/Mimic.v
theories/Spec_Mimic.v
theories/MimicFacts.v
theories/MimicFacts2.v
theories/MimicFacts3.v
theories/MimicFacts4.v
theories/MimicFacts5.v
theories/Prop_Mimic.v
theories/Reduce.v
theories/Append.v
theories/Spec_Append.v
theories/AppendFacts.v
theories/AppendFacts2.v
theories/AppendFacts3.v
theories/ReduceFacts.v
theories/ReduceFacts2.v
theories/ReduceFacts3.v
theories/ReduceFacts4.v
theories/ReduceFacts5.v
theories/ReduceFacts6.v
theories/ReduceFacts7.v
theories/ReduceFacts8.v
theories/Prop_Reduce.v
theories/AppendFacts4.v
theories/AppendFacts5.v
theories/AppendFacts6.v
theories/Spec_Attach.v
theories/AppendFacts7.v
theories/AppendFacts8.v
theories/AppendEval.v
theories/AppendFacts9.v
theories/Prop_Append.v
theories/DataX.v
theories/Coriolis.v
theories/RneaDer.v
theories/DerSums.v
theories/CoriolisFacts.v
theories/CoriolisFacts2.v
theories/CoriolisFacts3.v
theories/CoriolisFacts4.v
theories/DerPass.v
theories/RneaDerFacts.v
theories/RneaDerFacts2.v
theories/RneaDerFacts3.v
theories/RneaDerFacts4.v
theories/Spec_Deriv.v
theories/RneaDerFacts5.v
theories/RneaDerFacts6.v
theories/RneaDerFacts7.v
theories/RneaDerFacts8.v
theories/Prop_Coriolis.v
theories/Prop_Deriv.v
theories/Minverse.v
theories/MinvFacts.v
theories/MinvFacts2.v
theories/MinvFacts3.v
theories/MinvFacts4.v
theories/Prop_Minv.v
theories/AbaDer.v
theories/AbaDerFacts.v
theories/AbaDerFacts2.v
theories/AbaDerFacts3.v
theories/AbaDerFacts4.v
theories/AbaDerFacts5.v
theories/AbaDerFacts6.v
theories/Prop_AbaDer.v
theories/KinDer.v
theories/KinDerFacts.v
theories/KinDerFacts2.v
theories/Spec_KinDer.v
theories/KinDerFacts3.v
theories/KinDerFacts4.v
theories/KinDerFacts5.v
theories/KinDerFacts6.v
theories/KinDerFacts7.v
theories/KinDerFacts8.v
theories/KinDerEx.v
theories/Prop_KinDer.v
theories/KinHess.v
theories/KinHessFacts.v
theories/KinHessFacts2.v
theories/KinHessFacts3.v
theories/KinHessFacts4.v
theories/KinHessFacts5.v
theories/Prop_KinHess.v
theories/Contact.v
theories/Spec_Contact.v
theories/ContactFacts.v
theories/ContactFacts2.v
theories/Prop_Contact.v
theories/AllTerms.v
theories/AllTermsFacts.v
theories/AllTermsFacts2.v
theories/AllTermsFacts3.v
theories/AllTermsFacts4.v
theories/Prop_AllTerms.v
theories/ContactDyn.v
theories/Spec_ContactDyn.v
theories/ContactDynFacts.v
theories/ContactDynFacts2.v
theories/Prop_ContactDyn.v
theories/Spec_ExpJac.v
theories/ExpJac.v
theories/ExpJacFacts.v
theories/ExpJacFacts2.v
theories/ExpJacFacts3.v
theories/ExpJacFacts4.v
theories/ExpJacEx.v
theories/Prop_ExpJac.v
theories/LogMat.v
theories/Spec_LogMat.v
theories/LogMatFacts.v
theories/LogMatFacts2.v
theories/LogMatFacts3.v
theories/LogMatFacts4.v
theories/LogMatFacts5.v
theories/LogMatFacts6.v
theories/LogMatEx.v
theories/Prop_LogMat.v
theories/LieDer.v
theories/Spec_LieDer.v
theories/LieDerFacts.v
theories/LieDerFacts2.v
theories/LieDerFacts3.v
theories/LieDerFacts4.v
theories/LieDerFacts5.v
theories/LieDerFacts6.v
theories/LieDerFacts7.v
theories/LieDerEx.v
theories/Prop_LieDer.v
theories/Supported.v
theories/Spec_Supported.v
theories/SupportedFacts.v
theories/SupportedFacts2.v
theories/SupportedFacts3.v
theories/SupportedEx.v
theories/Prop_Supported.v
theories/SubCom.v
theories/SubComFacts.v
theories/SubComFacts2.v
theories/SubComFacts3.v
theories/SubComFacts4.v
theories/SubComFacts5.v
theories/Prop_SubCom.v
theories/ComDer.v
theories/ComDerFacts.v
theories/ComDerFacts2.v
theories/ComDerEx.v
theories/Prop_ComDer.v
theories/Constraint.v
theories/Spec_Constraint.v
theories/ConstraintFacts.v
theories/ConstraintFacts2.v
theories/ConstraintFacts3.v
theories/ConstraintEx.v
theories/Prop_Constraint.v
theories/ContactInv.v
theories/Spec_ContactInv.v
theories/ContactInvFacts.v
theories/ContactInvFacts2.v
theories/ContactInvFacts3.v
theories/ContactInvEx.v
theories/Prop_ContactInv.v
theories/CheckData.v
theories/Spec_Check.v
theories/CheckFacts.v
theories/CheckFacts2.v
theories/CheckFacts3.v
theories/Prop_Check.v
theories/Delassus.v
theories/Spec_Delassus.v
theories/DelassusFacts.v
theories/DelassusFacts2.v
theories/Prop_Delassus.v
theories/RefFrames.v
theories/Spec_RefFrames.v
theories/RefFramesFacts.v
theories/Prop_RefFrames.v
theories/CopyData.v
theories/CopyFacts.v
theories/Prop_Copy.v
theories/Urdf.v
theories/Spec_Urdf.v
theories/UrdfFacts.v
theories/UrdfFacts2.v
theories/UrdfFacts3.v
theories/Prop_Urdf.v
theories/UrdfJoint.v
theories/Spec_UrdfJoint.v
theories/UrdfJointFacts.v
theories/Prop_UrdfJoint.v
theories/Srdf.v
theories/Spec_Srdf.v
theories/SrdfFacts.v
theories/SrdfEx.v
theories/Prop_Srdf.v
theories/SrdfRotor.v
theories/SrdfRotorFacts.v
theories/Prop_SrdfRotor.v
