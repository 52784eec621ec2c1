(* The matrices of computeABADerivatives against the derivatives of forward dynamics. *)
Require Import Reals List Arith ZArith Lia Lra Bool.
From Verif Require Import Vec3 Spatial Inertia InertiaFacts SpatialFacts Joints Spec_Joints Deriv JointFacts JointFacts2 Model Spec_Model ModelFacts ModelTree ModelFacts2 Sums Data Kinematics Spec_Kin Spec_Mass KinFacts KinFacts2 KinFacts3 Spec_Dyn Rnea DynFacts DynFacts2 TreeSums MassFacts Crba CrbaFacts CrbaFacts2 CrbaFacts3 Jacobian Spec_Jac Spec_Chol CholFacts4 ComFacts2 DataX Coriolis DerSums CoriolisFacts RneaDer RneaDerFacts RneaDerFacts2 RneaDerFacts3 RneaDerFacts4 RneaDerFacts5 Spec_Deriv Aba Spec_Aba AbaInv AbaFacts3 Minverse MinvFacts4 AbaDer AbaDerFacts3 AbaDerFacts4.
Import ListNotations.
Local Open Scope nat_scope.
Local Open Scope bool_scope.

(* the inverse of a matrix whose entries have derivatives has derivatives *)
Definition hasDeriv (f : R -> R) (t : R) : Prop := exists d, deriv f d t.
Lemma hd_sum n (f : nat -> R -> R) t : (forall k, k < n -> hasDeriv (f k) t) -> hasDeriv (fun x => sumN n (fun k => f k x)) t.
Proof.
  induction n as [|n IH]; intros H; [exists 0%R; exact (deriv_const 0 t)|]. destruct (IH (fun k Hk => H k ltac:(lia))) as [a Ha]. destruct (H n ltac:(lia)) as [b Hb]. exists (a + b)%R. cbn [sumN]. now apply deriv_plus.
Qed.
Lemma hd_mult f g t : hasDeriv f t -> hasDeriv g t -> hasDeriv (fun x => f x * g x)%R t.
Proof. intros [a Ha] [b Hb]. eexists. apply deriv_mult; eassumption. Qed.
Lemma hd_plus f g t : hasDeriv f t -> hasDeriv g t -> hasDeriv (fun x => f x + g x)%R t.
Proof. intros [a Ha] [b Hb]. eexists. apply deriv_plus; eassumption. Qed.
Lemma hd_minus f g t : hasDeriv f t -> hasDeriv g t -> hasDeriv (fun x => f x - g x)%R t.
Proof. intros [a Ha] [b Hb]. eexists. apply deriv_minus; eassumption. Qed.
Lemma hd_opp f t : hasDeriv f t -> hasDeriv (fun x => - f x)%R t.
Proof. intros [a Ha]. eexists. apply deriv_opp; eassumption. Qed.
Lemma hd_div f g t : g t <> 0%R -> hasDeriv f t -> hasDeriv g t -> hasDeriv (fun x => f x / g x)%R t.
Proof. intros H [a Ha] [b Hb]. eexists. apply deriv_div; eassumption. Qed.
Lemma hd_const c t : hasDeriv (fun _ => c) t.
Proof. exists 0%R. apply deriv_const. Qed.
Lemma elimInv_hd n : forall (A : R -> nat -> nat -> R) t, symmetricM n (A t) -> positiveM n (A t) -> (forall k l, k < n -> l < n -> hasDeriv (fun x => A x k l) t) ->
  forall k l, k < n -> l < n -> hasDeriv (fun x => elimInv n (A x) k l) t.
Proof.
  induction n as [|n IH]; intros A t Sy P H k l Hk Hl; [lia|]. pose proof (lead_pos n (A t) P) as Ha. assert (Ha0 : A t 0 0 <> 0%R) by (intros E; rewrite E in Ha; lra).
  assert (HC : forall k l, k < n -> l < n -> hasDeriv (fun x => elimInv n (schur (A x)) k l) t).
  { apply (IH (fun x => schur (A x)) t); [now apply schur_sym | now apply schur_pos |]. intros k' l' Hk' Hl'. unfold schur. apply hd_minus; [apply H; lia|]. apply hd_div; [exact Ha0 | apply hd_mult; apply H; lia | apply H; lia]. }
  assert (HU : forall k, k < n -> hasDeriv (fun x => sumN n (fun j => elimInv n (schur (A x)) k j * A x 0%nat (S j)))%R t).
  { intros k' Hk'. apply (hd_sum n (fun j x => elimInv n (schur (A x)) k' j * A x 0%nat (S j))%R). intros j Hj. apply hd_mult; [now apply HC | apply H; lia]. }
  cbn [elimInv]. destruct k as [|k], l as [|l].
  - apply hd_plus; [apply hd_div; [exact Ha0 | apply hd_const | apply H; lia]|]. apply hd_div; [now apply Rmult_integral_contrapositive_currified | | apply hd_mult; apply H; lia].
    apply (hd_sum n (fun j x => A x 0%nat (S j) * sumN n (fun l => elimInv n (schur (A x)) j l * A x 0%nat (S l)))%R). intros j Hj. apply hd_mult; [apply H; lia | now apply HU].
  - apply hd_div; [exact Ha0 | | apply H; lia]. apply hd_opp. apply (hd_sum n (fun j x => A x 0%nat (S j) * elimInv n (schur (A x)) j l)%R). intros j Hj. apply hd_mult; [apply H; lia | apply HC; lia].
  - apply hd_div; [exact Ha0 | | apply H; lia]. apply hd_opp. apply HU. lia.
  - apply HC; lia.
Qed.
Lemma fin_choice n (P : nat -> R -> Prop) : (forall k, k < n -> exists x, P k x) -> exists f : nat -> R, forall k, k < n -> P k (f k).
Proof.
  induction n as [|n IH]; intros H; [exists (fun _ => 0%R); lia|]. destruct (IH (fun k Hk => H k ltac:(lia))) as [f Hf]. destruct (H n ltac:(lia)) as [x Hx].
  exists (fun k => if k =? n then x else f k). intros k Hk. destruct (Nat.eqb_spec k n) as [->|Hn]; [exact Hx | apply Hf; lia].
Qed.

Section Fd.
Variable eps : R.
Variable m : Model.
Hypothesis Bt : Built eps m.
Let W : wellFormed m := Built_wf eps m Bt.
Let T : treeInv m := Built_tree eps m Bt.
Hypothesis Vm : validModel m.
Hypothesis NM : noMimic m.
Let zero : vec := fun _ => 0%R.

Lemma invDyn_affine d d' q v a fext k : validState m q -> k < m_nv m -> invDyn m d q v a fext k = (dotv (m_nv m) (massMatrix m q k) a + invDyn m d' q v zero fext k)%R.
Proof.
  intros Hq Hk.
  assert (E : forall d a, invDyn m d q v a fext k = (rnea m d q v a k - power m q (extOf fext) (unitv k))%R).
  { intros e b. rewrite <- (dotv_unit _ k (invDyn m e q v b fext) Hk), <- (dotv_unit _ k (rnea m e q v b) Hk), (invDyn_power eps m Bt Vm) by exact Hq.
    rewrite (rnea_power m W T Vm e q v b (unitv k) Hq), power_sub. ring. }
  rewrite !E, (rnea_affine m W T Vm d (newData m) q v a k Hq Hk), (rnea_affine m W T Vm d' (newData m) q v zero k Hq Hk).
  assert (Z : dotv (m_nv m) (massMatrix m q k) zero = 0%R) by (unfold dotv, zero; apply sumN_zero; intros; ring). rewrite Z. ring.
Qed.

Hypothesis FA : forall i, 0 < i < m_njoints m -> fixedAxes (jm_type (joint m i)).
Variable fext : option (nat -> Force).
Variables (q v tau : R -> vec) (w v' tau' : vec) (t : R).
Hypothesis Hq : forall x, validState m (q x).
Hypothesis PM : forall x, positiveM (m_nv m) (massMatrix m (q x)).
Hypothesis Hm : moves m q w t.
Hypothesis Hv : accelerates m v v' t.
Hypothesis Ht : accelerates m tau tau' t.

Lemma invDyn_hd d a k : k < m_nv m -> hasDeriv (fun x => invDyn m d (q x) (v x) a fext k) t.
Proof.
  intros Hk. eexists. apply (invDyn_deriv eps m Bt Vm NM FA (ofPairs m (qEntry m (q t) (v t) a (extOf fext))) (ofPairs m (vEntry m (q t) (v t))) d fext q v (fun _ => a) w v' zero t k Hq Hm Hv); [|exact Hk | | ].
  - intros l Hl. apply deriv_const.
  - intros i c j l Hi Hc Hj Hl. now apply (ofPairs_eq eps m Bt NM).
  - intros i c j l Hi Hc Hj Hl. now apply (ofPairs_eq eps m Bt NM).
Qed.
Lemma mass_hd k l : k < m_nv m -> l < m_nv m -> hasDeriv (fun x => massMatrix m (q x) k l) t.
Proof.
  intros Hk Hl. destruct (hd_minus _ _ t (invDyn_hd (newData m) (unitv l) k Hk) (invDyn_hd (newData m) zero k Hk)) as [D HD]. exists D. eapply deriv_ext; [|exact HD].
  intros x. cbv beta. rewrite (invDyn_affine (newData m) (newData m) (q x) (v x) (unitv l) fext k (Hq x) Hk).
  assert (E : dotv (m_nv m) (massMatrix m (q x) k) (unitv l) = massMatrix m (q x) k l) by exact (dotv_unit _ l (massMatrix m (q x) k) Hl). rewrite E. ring.
Qed.
Variable A : R -> vec.
Hypothesis HA : forall x d k, k < m_nv m -> invDyn m d (q x) (v x) (A x) fext k = tau x k.
Lemma fd_hd k : k < m_nv m -> hasDeriv (fun x => A x k) t.
Proof.
  intros Hk. pose (b := fun x l => (tau x l - invDyn m (newData m) (q x) (v x) zero fext l)%R).
  assert (MS : forall x, symmetricM (m_nv m) (massMatrix m (q x))) by (intros x i j _ _; apply massMatrix_sym).
  assert (E : forall x, A x k = dotv (m_nv m) (fun l => elimInv (m_nv m) (massMatrix m (q x)) l k) (b x)).
  { intros x. pose proof (elimInv_inverts (m_nv m) _ (MS x) (PM x)) as HI. unfold dotv.
    transitivity (sumN (m_nv m) (fun j => A x j * (if k =? j then 1 else 0))%R).
    { rewrite (sumN_ext _ _ (fun j => if k =? j then A x j else 0%R)) by (intros j _; destruct (k =? j); ring). symmetry. exact (sumN_delta (m_nv m) k (A x) Hk). }
    rewrite (sumN_ext _ _ (fun j => sumN (m_nv m) (fun l => A x j * (massMatrix m (q x) j l * elimInv (m_nv m) (massMatrix m (q x)) l k)))%R).
    2:{ intros j Hj. rewrite sumN_scale, Nat.eqb_sym. f_equal. symmetry. exact (HI j k Hj Hk). }
    rewrite sumN_swap. apply sumN_ext. intros l Hl. unfold b. rewrite <- (HA x (newData m) l Hl), (invDyn_affine (newData m) (newData m) (q x) (v x) (A x) fext l (Hq x) Hl).
    replace (dotv (m_nv m) (massMatrix m (q x) l) (A x) + invDyn m (newData m) (q x) (v x) zero fext l - invDyn m (newData m) (q x) (v x) zero fext l)%R with (dotv (m_nv m) (massMatrix m (q x) l) (A x)) by ring.
    unfold dotv. rewrite <- sumN_scale. apply sumN_ext. intros j Hj. rewrite (massMatrix_sym m (q x) j l). ring. }
  assert (H : hasDeriv (fun x => dotv (m_nv m) (fun l => elimInv (m_nv m) (massMatrix m (q x)) l k) (b x)) t).
  { unfold dotv. apply (hd_sum (m_nv m) (fun l x => elimInv (m_nv m) (massMatrix m (q x)) l k * b x l)%R). intros l Hl. apply hd_mult.
    - apply (elimInv_hd (m_nv m) (fun x => massMatrix m (q x))); [apply MS | apply PM | intros; now apply mass_hd | exact Hl | exact Hk].
    - unfold b. apply hd_minus; [exists (tau' l); now apply Ht | now apply invDyn_hd]. }
  destruct H as [D HD]. exists D. eapply deriv_ext; [exact E | exact HD].
Qed.
Lemma fd_deriv Eq Ev X k : symmetricM (m_nv m) X -> identityM (m_nv m) (matMul (m_nv m) (massMatrix m (q t)) X) -> k < m_nv m ->
  (forall i c j l, 0 < i < m_njoints m -> c < nvOf m i -> 0 < j < m_njoints m -> l < nvOf m j -> Eq (idx_v m i + c) (idx_v m j + l) = qEntry m (q t) (v t) (A t) (extOf fext) i c j l) ->
  (forall i c j l, 0 < i < m_njoints m -> c < nvOf m i -> 0 < j < m_njoints m -> l < nvOf m j -> Ev (idx_v m i + c) (idx_v m j + l) = vEntry m (q t) (v t) i c j l) ->
  deriv (fun x => A x k) (dotv (m_nv m) (X k) (fun l => tau' l - dotv (m_nv m) (Eq l) w - dotv (m_nv m) (Ev l) v')%R) t.
Proof.
  intros XS XI Hk HE1 HE2. destruct (fin_choice (m_nv m) (fun k d => deriv (fun x => A x k) d t) fd_hd) as [a' Ha'].
  assert (MA : forall l, l < m_nv m -> dotv (m_nv m) (massMatrix m (q t) l) a' = (tau' l - dotv (m_nv m) (Eq l) w - dotv (m_nv m) (Ev l) v')%R).
  { intros l Hl. pose proof (invDyn_deriv eps m Bt Vm NM FA Eq Ev (newData m) fext q v A w v' a' t l Hq Hm Hv Ha' Hl HE1 HE2) as D1.
    assert (D2 : deriv (fun s => invDyn m (newData m) (q s) (v s) (A s) fext l) (tau' l) t) by (eapply deriv_ext; [intros x; apply (HA x _ l Hl) | now apply Ht]).
    rewrite <- (deriv_unique _ _ _ _ D1 D2). ring. }
  eapply deriv_eq; [exact (Ha' k Hk)|]. exact (solve_left (m_nv m) (massMatrix m (q t)) X (massMatrix_sym m (q t)) XS XI a' _ MA k Hk).
Qed.
End Fd.
