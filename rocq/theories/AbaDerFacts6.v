(* computeABADerivatives: its matrices are the partial derivatives of forward dynamics. *)
Require Import Reals List Arith ZArith Lia Lra Bool.
From Verif Require Import Vec3 Spatial Inertia Joints Spec_Joints Deriv Model Spec_Model ModelFacts ModelTree Sums Data Kinematics Spec_Kin Spec_Mass Spec_Dyn Rnea DynFacts2 TreeSums Crba CrbaFacts3 Jacobian Spec_Jac Spec_Chol CholFacts4 DataX RneaDer RneaDerFacts RneaDerFacts2 RneaDerFacts4 RneaDerFacts5 Spec_Deriv Aba Spec_Aba AbaFacts3 Minverse MinvFacts4 AbaDer AbaDerFacts3 AbaDerFacts4 AbaDerFacts5.
Import ListNotations.
Local Open Scope nat_scope.
Local Open Scope bool_scope.

Lemma lowerFromUpper_sym m x k l : k < m_nv m -> l < m_nv m -> lowerFromUpper m x k l = symUpper x k l.
Proof. intros Hk Hl. unfold lowerFromUpper, symUpper. destruct (Nat.ltb_spec l k), (Nat.ltb_spec k (m_nv m)), (Nat.leb_spec k l); try lia; reflexivity. Qed.
Lemma minusMul_dot m A B k w : dotv (m_nv m) (minusMul m A B k) w = (- dotv (m_nv m) (A k) (fun j => dotv (m_nv m) (B j) w))%R.
Proof.
  unfold dotv, minusMul. rewrite (sumN_ext _ _ (fun l => -1 * sumN (m_nv m) (fun j => A k j * B j l * w l))%R).
  2:{ intros l _. rewrite sumN_scale_r. ring. }
  rewrite sumN_scale, sumN_swap. rewrite (sumN_ext _ (fun l => sumN (m_nv m) (fun k0 => A k l * B l k0 * w k0))%R (fun j => A k j * sumN (m_nv m) (fun l => B j l * w l))%R); [ring|].
  intros j _. rewrite <- sumN_scale. apply sumN_ext. intros l _. ring.
Qed.

Section End.
Variable eps : R.
Variable m : Model.
Hypothesis Bt : Built eps m.
Let W : wellFormed m := Built_wf eps m Bt.
Let T : treeInv m := Built_tree eps m Bt.
Hypothesis Vm : validModel m.
Hypothesis NM : noMimic m.
Hypothesis Pos : noRigidJoint m.
Hypothesis DF : depthFirst m.
Hypothesis RM : regularMasses eps m.
Variable fext : option (nat -> Force).

(* what both versions leave before their last pass *)
Definition adBefore (q v tau : vec) (s0 s : DX) : Prop := let ddq := ve (gl (bs s)) F_ddq in
  adReady m q v fext ddq s /\ xma s = xma s0 /\ (forall d' k, k < m_nv m -> invDyn m d' q v ddq fext k = tau k) /\ minvOk m q s.
Definition adLast (s : DX) : AbaDq := adEnd m (downward m (adBack2 eps m) s).
Lemma adEnd_Minv u : ma (gl (bs (ad_state (adEnd m u)))) F_Minv = lowerFromUpper m (ma (gl (bs u)) F_Minv).
Proof. unfold adEnd, onMinv. cbn [ad_state]. memx. unfold setMa. mem. reflexivity. Qed.
Lemma adEnd_ddq u : ve (gl (bs (ad_state (adEnd m u)))) F_ddq = ve (gl (bs u)) F_ddq.
Proof. unfold adEnd, onMinv. cbn [ad_state]. memx. reflexivity. Qed.
Lemma adEnd_dq u k w : dotv (m_nv m) (ad_dq (adEnd m u) k) w = (- dotv (m_nv m) (lowerFromUpper m (ma (gl (bs u)) F_Minv) k) (fun j => dotv (m_nv m) (xma u P_dq j) w))%R.
Proof. rewrite <- minusMul_dot. reflexivity. Qed.
Lemma adEnd_dv u k w : dotv (m_nv m) (ad_dv (adEnd m u) k) w = (- dotv (m_nv m) (lowerFromUpper m (ma (gl (bs u)) F_Minv) k) (fun j => dotv (m_nv m) (xma u P_dv j) w))%R.
Proof. rewrite <- minusMul_dot. reflexivity. Qed.

Lemma minv_total q v tau s0 s : adBefore q v tau s0 s -> let X := ma (gl (bs (ad_state (adLast s)))) F_Minv in
  symmetricM (m_nv m) X /\ identityM (m_nv m) (matMul (m_nv m) (massMatrix m q) X).
Proof.
  intros (AR & EX & _ & (MS & MI)). destruct (ad_pass4 eps m Bt Vm NM Pos DF RM q v _ fext s AR) as (G & _). cbv zeta in *. unfold adLast. rewrite adEnd_Minv, G. split.
  - intros k l Hk Hl. rewrite !lowerFromUpper_sym by assumption. now apply MS.
  - intros k l Hk Hl. rewrite <- (MI k l Hk Hl). unfold matMul. apply sumN_ext. intros j Hj. now rewrite lowerFromUpper_sym.
Qed.
Lemma ddq_total q v tau s0 s a : validState m q -> adBefore q v tau s0 s -> (forall d k, k < m_nv m -> invDyn m d q v a fext k = tau k) ->
  forall k, k < m_nv m -> ve (gl (bs (ad_state (adLast s)))) F_ddq k = a k.
Proof.
  intros Hq (AR & EX & HI & (MS & MI)) HA k Hk. destruct (ad_pass4 eps m Bt Vm NM Pos DF RM q v _ fext s AR) as (G & _). cbv zeta in *. unfold adLast. rewrite adEnd_ddq, G.
  pose (b := fun l => (tau l - invDyn m (newData m) q v (fun _ => 0%R) fext l)%R).
  assert (S1 : forall x, (forall d k, k < m_nv m -> invDyn m d q v x fext k = tau k) -> forall l, l < m_nv m -> dotv (m_nv m) (massMatrix m q l) x = b l).
  { intros x Hx l Hl. unfold b. rewrite <- (Hx (newData m) l Hl), (invDyn_affine eps m Bt Vm (newData m) (newData m) q v x fext l Hq Hl). ring. }
  rewrite (solve_left (m_nv m) (massMatrix m q) _ (massMatrix_sym m q) MS MI _ b (S1 _ HI) k Hk). symmetry. exact (solve_left (m_nv m) (massMatrix m q) _ (massMatrix_sym m q) MS MI _ b (S1 a HA) k Hk).
Qed.

Hypothesis FA : forall i, 0 < i < m_njoints m -> fixedAxes (jm_type (joint m i)).
Lemma deriv_total (q v tau : R -> vec) (w v' tau' : vec) (t : R) (F : R -> vec) s0 s k :
  (forall x, validState m (q x)) -> (forall x, positiveM (m_nv m) (massMatrix m (q x))) -> moves m q w t -> accelerates m v v' t -> accelerates m tau tau' t ->
  treeSparse m (xma s0 P_dq) -> treeSparse m (xma s0 P_dv) -> adBefore (q t) (v t) (tau t) s0 s -> (forall x d k, k < m_nv m -> invDyn m d (q x) (v x) (F x) fext k = tau x k) -> k < m_nv m ->
  let D := adLast s in deriv (fun x => F x k) (dotv (m_nv m) (ad_dq D k) w + dotv (m_nv m) (ad_dv D k) v' + dotv (m_nv m) (ma (gl (bs (ad_state D))) F_Minv k) tau')%R t.
Proof.
  intros Hq PM Hm Hv Ht S1 S2 B HF Hk D.
  pose proof (ddq_total (q t) (v t) (tau t) s0 s (F t) (Hq t) B (HF t)) as HD. pose proof (minv_total (q t) (v t) (tau t) s0 s B) as [XS XI]. cbv zeta in XS, XI.
  destruct B as (AR & EX & HI & _). destruct (ad_pass4 eps m Bt Vm NM Pos DF RM (q t) (v t) _ fext s AR) as (G & Fq & Fv). cbv zeta in *. rewrite EX in Fq, Fv.
  pose proof (fun i c j l => fills_all eps m Bt NM _ _ _ S1 (qEntry_off eps m Bt (q t) (v t) _ _) Fq i c j l) as HE1.
  pose proof (fun i c j l => fills_all eps m Bt NM _ _ _ S2 (fun i c j l _ _ => vEntry_off eps m Bt (q t) (v t) i c j l) Fv i c j l) as HE2.
  pose (ddq := ve (gl (bs s)) F_ddq). pose (A := fun x => if Req_EM_T x t then ddq else F x).
  assert (At : A t = ddq) by (unfold A; destruct (Req_EM_T t t); congruence).
  assert (HA : forall x d k, k < m_nv m -> invDyn m d (q x) (v x) (A x) fext k = tau x k).
  { intros x d l Hl. unfold A. destruct (Req_EM_T x t) as [->|]; [now apply HI | now apply HF]. }
  apply (deriv_ext _ (fun x => A x k)).
  { intros x. unfold A. destruct (Req_EM_T x t) as [->|]; [|reflexivity]. rewrite <- (HD k Hk). unfold adLast. rewrite adEnd_ddq, G. reflexivity. }
  pose proof (fd_deriv eps m Bt Vm NM FA fext q v tau w v' tau' t Hq PM Hm Hv Ht A HA (xma (downward m (adBack2 eps m) s) P_dq) (xma (downward m (adBack2 eps m) s) P_dv) _ k XS XI Hk) as FD. rewrite At in FD.
  eapply deriv_eq; [exact (FD HE1 HE2)|]. unfold D, adLast. rewrite adEnd_dq, adEnd_dv, adEnd_Minv. unfold dotv at 1 4 6 8.
  rewrite (sumN_ext _ _ (fun l => lowerFromUpper m (ma (gl (bs (downward m (adBack2 eps m) s))) F_Minv) k l * tau' l - lowerFromUpper m (ma (gl (bs (downward m (adBack2 eps m) s))) F_Minv) k l * dotv (m_nv m) (xma (downward m (adBack2 eps m) s) P_dq l) w
    - lowerFromUpper m (ma (gl (bs (downward m (adBack2 eps m) s))) F_Minv) k l * dotv (m_nv m) (xma (downward m (adBack2 eps m) s) P_dv l) v')%R) by (intros; ring).
  rewrite !sumN_sub. ring.
Qed.
End End.

Section Two.
Variable eps : R.
Variable m : Model.
Hypothesis Bt : Built eps m.
Hypothesis Vm : validModel m.
Hypothesis NM : noMimic m.
Hypothesis Pos : noRigidJoint m.
Hypothesis DF : depthFirst m.
Hypothesis RM : regularMasses eps m.
Variable inv : nat -> (nat -> nat -> R) -> nat -> nat -> R.
Hypothesis HI : invertsPD inv.
Variable fext : option (nat -> Force).
(* forward dynamics *)
Definition fwdDyn (d : Data) (q v tau : vec) : vec := ve (gl (abaDataOf m inv q v fext d tau)) F_ddq.
Lemma fwdDyn_spec d q v tau : validState m q -> positiveM (m_nv m) (massMatrix m q) -> forall d' k, k < m_nv m -> invDyn m d' q v (fwdDyn d q v tau) fext k = tau k.
Proof. intros Hq PM. destruct (aba_after eps m Bt Vm NM inv HI q v Hq PM fext d tau) as (_ & _ & _ & H & _). exact H. Qed.

Lemma before_main s q v tau : validState m q -> positiveM (m_nv m) (massMatrix m q) -> adBefore m fext q v tau s (upward m (adFwd2 m fext) (onBs s (adPasses12 inv m q v tau fext))).
Proof. intros Hq PM. exact (main_passes eps m Bt Vm NM inv HI q v Hq PM fext DF s tau). Qed.
Definition optBefore (s : DX) : DX :=
  upward m (adFwd2O m fext) (onBs (onBs (onBs s (fun d => setGl d (onMinv (gl d) (zeroUpper m)))) (fun d => setGl d (onFcrb (gl d) 0 (fun _ _ => v6zero)))) (downward m (minvBackO m))).
Lemma before_opt x y d q v tau : validState m q -> positiveM (m_nv m) (massMatrix m q) ->
  adBefore m fext q v tau (mkDX (abaDataOf m inv q v fext d tau) x y) (optBefore (mkDX (abaDataOf m inv q v fext d tau) x y)).
Proof. intros Hq PM. exact (optimized_passes eps m Bt Vm NM inv HI q v Hq PM fext DF (mkDX (abaDataOf m inv q v fext d tau) x y) tau (aba_after eps m Bt Vm NM inv HI q v Hq PM fext d tau)). Qed.

Theorem ad_minv s q v tau : validState m q -> positiveM (m_nv m) (massMatrix m q) -> let X := ma (gl (bs (ad_state (computeABADerivatives inv eps m s q v tau fext)))) F_Minv in
  symmetricM (m_nv m) X /\ identityM (m_nv m) (matMul (m_nv m) (massMatrix m q) X).
Proof. intros Hq PM. exact (minv_total eps m Bt Vm NM Pos DF RM fext q v tau s _ (before_main s q v tau Hq PM)). Qed.
Theorem ad_ddq s d q v tau k : validState m q -> positiveM (m_nv m) (massMatrix m q) -> k < m_nv m -> ve (gl (bs (ad_state (computeABADerivatives inv eps m s q v tau fext)))) F_ddq k = fwdDyn d q v tau k.
Proof. intros Hq PM. exact (ddq_total eps m Bt Vm NM Pos DF RM fext q v tau s _ _ Hq (before_main s q v tau Hq PM) (fwdDyn_spec d q v tau Hq PM) k). Qed.
Theorem adO_minv x y d q v tau : validState m q -> positiveM (m_nv m) (massMatrix m q) -> let X := ma (gl (bs (ad_state (computeABADerivativesO eps m (mkDX (abaDataOf m inv q v fext d tau) x y) fext)))) F_Minv in
  symmetricM (m_nv m) X /\ identityM (m_nv m) (matMul (m_nv m) (massMatrix m q) X).
Proof. intros Hq PM. exact (minv_total eps m Bt Vm NM Pos DF RM fext q v tau _ _ (before_opt x y d q v tau Hq PM)). Qed.
Theorem adO_ddq x y d q v tau k : validState m q -> positiveM (m_nv m) (massMatrix m q) -> k < m_nv m ->
  ve (gl (bs (ad_state (computeABADerivativesO eps m (mkDX (abaDataOf m inv q v fext d tau) x y) fext)))) F_ddq k = fwdDyn d q v tau k.
Proof. intros Hq PM. exact (ddq_total eps m Bt Vm NM Pos DF RM fext q v tau _ _ _ Hq (before_opt x y d q v tau Hq PM) (fwdDyn_spec d q v tau Hq PM) k). Qed.

Hypothesis FA : forall i, 0 < i < m_njoints m -> fixedAxes (jm_type (joint m i)).
Variables (q v tau : R -> vec) (w v' tau' : vec) (t : R).
Hypothesis Hq : forall x, validState m (q x).
Hypothesis PM : forall x, positiveM (m_nv m) (massMatrix m (q x)).
Hypothesis Hm : moves m q w t.
Hypothesis Hv : accelerates m v v' t.
Hypothesis Ht : accelerates m tau tau' t.
Theorem ad_differential s d k : treeSparse m (xma s P_dq) -> treeSparse m (xma s P_dv) -> k < m_nv m ->
  let D := computeABADerivatives inv eps m s (q t) (v t) (tau t) fext in
  deriv (fun x => fwdDyn d (q x) (v x) (tau x) k) (dotv (m_nv m) (ad_dq D k) w + dotv (m_nv m) (ad_dv D k) v' + dotv (m_nv m) (ma (gl (bs (ad_state D))) F_Minv k) tau')%R t.
Proof.
  intros S1 S2 Hk. exact (deriv_total eps m Bt Vm NM Pos DF RM fext FA q v tau w v' tau' t (fun x => fwdDyn d (q x) (v x) (tau x)) s _ k Hq PM Hm Hv Ht S1 S2
    (before_main s (q t) (v t) (tau t) (Hq t) (PM t)) (fun x => fwdDyn_spec d (q x) (v x) (tau x) (Hq x) (PM x)) Hk).
Qed.
Theorem adO_differential x y d d' k : treeSparse m (y P_dq) -> treeSparse m (y P_dv) -> k < m_nv m ->
  let D := computeABADerivativesO eps m (mkDX (abaDataOf m inv (q t) (v t) fext d' (tau t)) x y) fext in
  deriv (fun x => fwdDyn d (q x) (v x) (tau x) k) (dotv (m_nv m) (ad_dq D k) w + dotv (m_nv m) (ad_dv D k) v' + dotv (m_nv m) (ma (gl (bs (ad_state D))) F_Minv k) tau')%R t.
Proof.
  intros S1 S2 Hk. exact (deriv_total eps m Bt Vm NM Pos DF RM fext FA q v tau w v' tau' t (fun x => fwdDyn d (q x) (v x) (tau x)) (mkDX (abaDataOf m inv (q t) (v t) fext d' (tau t)) x y) _ k Hq PM Hm Hv Ht S1 S2
    (before_opt x y d' (q t) (v t) (tau t) (Hq t) (PM t)) (fun x => fwdDyn_spec d (q x) (v x) (tau x) (Hq x) (PM x)) Hk).
Qed.
End Two.
