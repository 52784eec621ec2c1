(* computeRNEADerivatives: its matrices are the partial derivatives of rnea. *)
Require Import Reals List Arith ZArith Lia Lra Bool.
From Verif Require Import Vec3 Spatial Inertia InertiaFacts SpatialFacts Joints Spec_Joints Deriv JointFacts JointFacts2 Model Spec_Model ModelFacts ModelTree ModelFacts2 Sums Data Kinematics Spec_Kin Spec_Mass KinFacts KinFacts2 KinFacts3 Spec_Dyn Rnea DynFacts DynFacts2 TreeSums MassFacts Crba CrbaFacts CrbaFacts2 CrbaFacts3 Jacobian Spec_Jac JacFacts JacFacts2 JacFacts3 JacFacts5 Spec_Chol CholFacts4 Com ComFacts2 Dccrba DccrbaFacts DccrbaFacts2 DataX Coriolis DerSums CoriolisFacts CoriolisFacts2 CoriolisFacts3 CoriolisFacts4 RneaDer DerPass RneaDerFacts RneaDerFacts2 RneaDerFacts3 RneaDerFacts4 Spec_Deriv.
Import ListNotations.
Local Open Scope nat_scope.
Local Open Scope bool_scope.

Section Fin.
Variable eps : R.
Variable m : Model.
Hypothesis Bt : Built eps m.
Let W : wellFormed m := Built_wf eps m Bt.
Let T : treeInv m := Built_tree eps m Bt.
Hypothesis Vm : validModel m.
Hypothesis NM : noMimic m.
Hypothesis DF : depthFirst m.
Hypothesis RM : regularMasses eps m.

(* inverse dynamics with optional external forces *)
Definition invDyn (d : Data) (q v a : vec) (fext : option (nat -> Force)) : vec := match fext with None => rnea m d q v a | Some f => rneaExt m d q v a f end.
Lemma invDyn_power d q v a fext u : validState m q ->
  dotv (m_nv m) (invDyn d q v a fext) u = (power m q (fun i => v6sub (bodyForce m q v a i) (extOf fext i)) u + armaturePower m a u)%R.
Proof.
  intros Hq. destruct fext as [f|]; cbn [invDyn extOf].
  - exact (rneaExt_power m W T Vm d q v a f u Hq).
  - rewrite (rnea_power m W T Vm d q v a u Hq). f_equal. apply bodies_ext'. intros b _. now rewrite v6sub_0_r.
Qed.
(* the differential of inverse dynamics *)
Hypothesis FA : forall i, 0 < i < m_njoints m -> fixedAxes (jm_type (joint m i)).
Lemma invDyn_deriv Eq Ev d fext (q v a : R -> vec) w v' a' t k : (forall s, validState m (q s)) -> moves m q w t -> accelerates m v v' t -> accelerates m a a' t -> k < m_nv m ->
  (forall i c j l, 0 < i < m_njoints m -> c < nvOf m i -> 0 < j < m_njoints m -> l < nvOf m j -> Eq (idx_v m i + c) (idx_v m j + l) = qEntry m (q t) (v t) (a t) (extOf fext) i c j l) ->
  (forall i c j l, 0 < i < m_njoints m -> c < nvOf m i -> 0 < j < m_njoints m -> l < nvOf m j -> Ev (idx_v m i + c) (idx_v m j + l) = vEntry m (q t) (v t) i c j l) ->
  deriv (fun s => invDyn d (q s) (v s) (a s) fext k) (dotv (m_nv m) (Eq k) w + dotv (m_nv m) (Ev k) v' + dotv (m_nv m) (massMatrix m (q t) k) a')%R t.
Proof.
  intros Hq Hm Hv Ha Hk HE1 HE2.
  apply (deriv_ext _ (fun s => power m (q s) (fun i => v6sub (bodyForce m (q s) (v s) (a s) i) (extOf fext i)) (unitv k) + armaturePower m (a s) (unitv k))%R).
  - intros s. rewrite <- invDyn_power with (d := d) by apply Hq. symmetry. now apply dotv_unit.
  - eapply deriv_eq.
    + apply deriv_plus; [exact (power_deriv eps m Bt Vm NM FA q v a w v' a' (extOf fext) (unitv k) t Hq Hm Hv Ha)|].
      instantiate (1 := armaturePower m a' (unitv k)). unfold armaturePower. apply (deriv_sumN _ (fun l s => nth l (m_armature m) 0 * a s l * unitv k l)%R).
      intros l Hl. eapply deriv_eq; [apply deriv_mult; [apply deriv_mult; [apply deriv_const | exact (Ha l Hl)] | apply deriv_const]|]. cbv beta. ring.
    + rewrite <- (q_form eps m Bt Vm NM Eq (q t) (v t) (a t) (extOf fext) (unitv k) w (Hq t) HE1), <- (v_form eps m Bt Vm NM Ev (q t) (v t) (unitv k) v' (Hq t) HE2).
      rewrite (a_form eps m Bt Vm (q t) (unitv k) a' (Hq t)), !matForm_unit by exact Hk. rewrite !Rplus_assoc. f_equal. f_equal.
      rewrite <- (massMatrix_form m W T Vm (q t) (unitv k) a'). unfold dotv at 1. rewrite (sumN_ext _ _ (fun l => dotv (m_nv m) (massMatrix m (q t) l) a' * unitv k l)%R) by (intros; ring). exact (dotv_unit _ k (fun l => dotv (m_nv m) (massMatrix m (q t) l) a') Hk).
Qed.
(* the torques *)
Lemma tau_dof d q v a fext i c : validState m q -> 0 < i < m_njoints m -> c < nvOf m i ->
  invDyn d q v a fext (idx_v m i + c) = (subSum m i (fun b => v6dot (worldCol m q i c) (wF m q v a (extOf fext) b)) + armatureOf m (idx_v m i + c) * a (idx_v m i + c)%nat)%R.
Proof.
  intros Hq Hi Hc. assert (Hk : idx_v m i + c < m_nv m) by (pose proof (idx_v_bound m W NM i Hi); lia).
  rewrite <- (dotv_unit _ _ (invDyn d q v a fext) Hk), invDyn_power by exact Hq. f_equal.
  - unfold power. rewrite (bodies_ext' m _ (fun b => if anc m i b then v6dot (worldCol m q i c) (wF m q v a (extOf fext) b) else 0%R)).
    + apply (bodies_all m W). rewrite (anc_0 m W T). destruct (Nat.eqb_spec i 0); [lia | reflexivity].
    + intros b Hb. pose proof (worldPl_rot m W T Vm q b Hq ltac:(lia)) as HR. rewrite <- (motion_force_dot (worldPl m q b) _ _ HR).
      change (motion_act (worldPl m q b) (bodyVel m q (unitv (idx_v m i + c)) b)) with (worldVel m q (unitv (idx_v m i + c)) b). rewrite (unit_vel m W T Vm NM q i c b Hq Hi Hc ltac:(lia)). unfold wF. destruct (anc m i b); [reflexivity | apply v6dot_0_l].
  - exact (dotv_unit _ _ (fun k => nth k (m_armature m) 0 * a k)%R Hk).
Qed.

(* what the two passes leave *)
Record rdDone (q v a : vec) (fext : option (nat -> Force)) (s t : DX) : Prop := {
  done_ready : corReady m q v (bs t);
  done_ma : ma (gl (bs t)) = ma (gl (bs s));
  done_tau : forall d k, k < m_nv m -> ve (gl (bs t)) F_tau k = invDyn d q v a fext k;
  done_q : fills m (qEntry m q v a (extOf fext)) (xma t P_dq) (xma s P_dq);
  done_v : fills m (vEntry m q v) (xma t P_dv) (xma s P_dv);
  done_a : forall i c j l, 0 < i < m_njoints m -> c < nvOf m i -> 0 < j < m_njoints m -> l < nvOf m j ->
     xma t P_da (idx_v m i + c) (idx_v m j + l) = (if anc m i j then aEntry m q i c j l else xma s P_da (idx_v m i + c) (idx_v m j + l)) }.
Lemma rdPasses_done q v a fext s : validState m q -> rdDone q v a fext s (rdPasses eps m q v a fext s).
Proof.
  intros Hq. unfold rdPasses. destruct (rd_passes eps m Bt Vm NM DF RM q v a fext s Hq) as (K & Y & TT & E). cbv zeta in *.
  destruct (rd_forward eps m Bt Vm NM q v a fext s Hq) as (F1 & F2 & F3). cbv zeta in *.
  set (s1 := upward m (rdFwd m q v a fext) (rdStart m s)) in *. set (t := downward m (rdBack eps m) s1) in *. clearbody t. clearbody s1.
  destruct K as ((K1 & K2 & K3 & K4) & K5).
  constructor; unfold rdRestore, addArmature; memx.
  - intros i Hi. memx. destruct (F3 i Hi) as ((R1 & _ & _ & R4 & _ & R6 & _) & C). destruct (K5 i) as (A1 & _ & A3 & A4 & _). rewrite A1, A3, A4, K1. refine (conj R1 (conj R4 (conj R6 (conj _ (Y i Hi))))).
    intros c Hc. destruct (C c Hc) as (C1 & C2 & _). exact (conj C1 C2).
  - now rewrite K2.
  - intros d k Hk. destruct (dof_owner m W k Hk) as (i & c & Hi & Hc & ->). rewrite (TT i c Hi Hc). symmetry. now apply tau_dof.
  - intros i c j l Hi Hc Hj Hl. apply E; assumption.
  - intros i c j l Hi Hc Hj Hl. apply E; assumption.
  - intros i c j l Hi Hc Hj Hl. apply E; assumption.
Qed.
Lemma upper_mass q (E E0 : nat -> nat -> R) k l : validState m q -> treeSparse m E0 ->
  (forall i c j l, 0 < i < m_njoints m -> c < nvOf m i -> 0 < j < m_njoints m -> l < nvOf m j ->
     E (idx_v m i + c) (idx_v m j + l) = (if anc m i j then aEntry m q i c j l else E0 (idx_v m i + c) (idx_v m j + l))) ->
  k <= l < m_nv m -> E k l = kineticForm m q (unitv k) (unitv l).
Proof.
  intros Hq S H [Hkl Hl]. destruct (dof_owner m W k ltac:(lia)) as (i & c & Hi & Hc & ->). destruct (dof_owner m W l Hl) as (j & e & Hj & He & ->).
  rewrite H by assumption. destruct (anc m i j) eqn:A1; [now rewrite (form_unit m W T Vm NM q i c j e Hq Hi Hc Hj He A1)|].
  assert (A2 : anc m j i = false).
  { destruct (anc m j i) eqn:A2; [|reflexivity]. exfalso. pose proof (anc_le m W T j i ltac:(lia) A2) as L. destruct (Nat.eq_dec i j) as [->|N]; [congruence|].
    pose proof (idx_v_mono m W NM j i ltac:(lia) ltac:(lia) ltac:(lia)); lia. }
  rewrite (form_unit_off m W T Vm NM q i c j e Hq Hi Hc Hj He A1 A2). apply S; [lia | lia |]. apply (sameBranch_or eps m Bt NM); try assumption. now rewrite A1, A2.
Qed.
Lemma addDiag_mass q (E : nat -> nat -> R) k l : (forall k l, k <= l < m_nv m -> E k l = kineticForm m q (unitv k) (unitv l)) -> k <= l < m_nv m -> addDiag m E k l = massMatrix m q k l.
Proof.
  intros H Hkl. unfold addDiag, massMatrix. rewrite <- (H k l Hkl). destruct (Nat.eqb_spec k l) as [<-|N]; cbn [andb]; [|ring]. destruct (Nat.ltb_spec k (m_nv m)); [reflexivity | lia].
Qed.
Lemma massMatrix_sym q k l : massMatrix m q k l = massMatrix m q l k.
Proof.
  unfold massMatrix. rewrite (Nat.eqb_sym l k). f_equal; [|destruct (Nat.eqb_spec k l); congruence].
  unfold kineticForm. apply bodies_ext'. intros b _. generalize (bodyVel m q (unitv k) b) (bodyVel m q (unitv l) b) (inertiaOf m b). intros x y Y. apply inertia_mul_sym.
Qed.
Lemma symUpper_mass q E k l : (forall k l, k <= l < m_nv m -> E k l = massMatrix m q k l) -> k < m_nv m -> l < m_nv m -> symUpper E k l = massMatrix m q k l.
Proof.
  intros H Hk Hl. unfold symUpper. destruct (Nat.leb_spec k l); [apply H; lia|]. rewrite H by lia. apply massMatrix_sym.
Qed.
Lemma symUpper_dot q E k x : (forall k l, k <= l < m_nv m -> E k l = massMatrix m q k l) -> k < m_nv m -> dotv (m_nv m) (symUpper E k) x = dotv (m_nv m) (massMatrix m q k) x.
Proof. intros H Hk. apply sumN_ext. intros l Hl. now rewrite (symUpper_mass q E k l H Hk Hl). Qed.

(* the three statements for a final state t: rnea_partial_da completed with the rotor inertias *)
Lemma done_total s T' d fext (q v a : R -> vec) w v' a' t k : (forall s, validState m (q s)) -> moves m q w t -> accelerates m v v' t -> accelerates m a a' t -> k < m_nv m ->
  treeSparse m (xma s P_dq) -> treeSparse m (xma s P_dv) -> treeSparse m (xma s P_da) -> rdDone (q t) (v t) (a t) fext s T' ->
  deriv (fun x => invDyn d (q x) (v x) (a x) fext k)
    (dotv (m_nv m) (xma T' P_dq k) w + dotv (m_nv m) (xma T' P_dv k) v' + dotv (m_nv m) (symUpper (addDiag m (xma T' P_da)) k) a')%R t.
Proof.
  intros Hq Hm Hv Ha Hk Sq Sv Sa D.
  rewrite (symUpper_dot (q t) _ k a'); [|intros k0 l0 H0; apply addDiag_mass; [|exact H0]; intros k1 l1 H1; exact (upper_mass (q t) _ _ k1 l1 (Hq t) Sa (done_a _ _ _ _ _ _ D) H1)|exact Hk].
  apply invDyn_deriv; try assumption.
  - apply (fills_all eps m Bt NM _ _ _ Sq); [|exact (done_q _ _ _ _ _ _ D)]. intros i c j l Hi Hj A. now apply (qEntry_off eps m Bt).
  - apply (fills_all eps m Bt NM _ _ _ Sv); [|exact (done_v _ _ _ _ _ _ D)]. intros i c j l Hi Hj A. now apply (vEntry_off eps m Bt).
Qed.
End Fin.
