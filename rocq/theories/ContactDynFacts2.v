(* contact-dynamics.hxx: the sparse factorisation, the contact problem and its solution. *)
Require Import Reals List Arith Lia Lra.
From Verif Require Import Vec3 Spatial Inertia Joints Model Spec_Model ModelFacts ModelTree ModelFacts2 ModelFacts3 Sums Data Kinematics Spec_Kin Spec_Mass KinFacts3 Spec_Dyn Rnea DynFacts2 Crba CrbaFacts3 Spec_Aba Aba AbaFacts3 AbaInv Spec_Jac
  Spec_Chol Cholesky CholFacts5 Spec_Com ComFacts5 AllTerms AllTermsFacts3 Spec_ContactDyn ContactDyn ContactDynFacts.
Local Open Scope R_scope.

(* a factorisation state left by the constructor or by an earlier decomposition *)
Section CD.
Variable inv : nat -> (nat -> nat -> R) -> nat -> nat -> R.
Hypothesis HI : invertsPD inv.
Variable eps : R.
Variable m : Model.
Hypothesis Bt : Built eps m.
Hypothesis Vm : validModel m.
Hypothesis NM : noMimic m.
Hypothesis DF : depthFirst m.
Hypothesis Pos : noRigidJoint m.
Notation n := (m_nv m).
Let W := Built_wf eps m Bt.
Let T := Built_tree eps m Bt.

Lemma llt_ok nc G b : symmetricM nc G -> positiveM nc G -> sameV nc (mulMV nc G (lltSolve inv nc G b)) b.
Proof.
  intros S P k Hk. pose proof (HI nc G S P) as E. unfold lltSolve.
  change (mulMV nc G (fun l => sumN nc (fun i => inv nc G l i * b i)) k = b k). rewrite (mulMV_sum nc G nc (fun i l => inv nc G l i) b k).
  rewrite <- (sumN_delta nc k b Hk). apply sumN_ext. intros i Hi. pose proof (E k i Hk Hi) as Q. unfold matMul in Q.
  change (mulMV nc G (fun l => inv nc G l i) k) with (sumN nc (fun l => G k l * inv nc G l i)). rewrite Q. destruct (Nat.eqb k i); ring.
Qed.

Section A.
Variables M A : nat -> nat -> R.
Variable s0 : Chol.
Hypothesis Sy : symmetricM n A.
Hypothesis Sp : treeSparse m A.
Hypothesis Po : positiveM n A.
Hypothesis HU : holdsUpper m M A.
Hypothesis U0 : unitUpper n (cU s0).
Hypothesis S0 : treeSparse m (cU s0).
Let s := decompose m M s0.
Lemma piv k : (k < n)%nat -> 0 < cD s k.
Proof. exact (pivots_thm eps m Bt Vm NM DF Pos M A s0 Sy Sp HU U0 S0 Po k). Qed.
Lemma piv0 k : (k < n)%nat -> cD s k <> 0. Proof. intros Hk. apply Rgt_not_eq, piv, Hk. Qed.
Lemma sol_ok v : sameV n (mulMV n A (cholSolve m s v)) v.
Proof. exact (proj1 (solve_thm eps m Bt Vm NM DF Pos M A s0 v Sy Sp HU U0 S0 piv0)). Qed.
Lemma JMinvJt_ok J mu i j : JMinvJt m (sDUiJt m s J) mu i j = dotv n (J i) (cholSolve m s (J j)) + (if Nat.eqb i j then mu else 0).
Proof.
  destruct (decompose_thm eps m Bt Vm NM DF Pos M A s0 Sy Sp HU U0 S0 piv0) as (U1 & S1 & DI & _). fold s in U1, S1, DI.
  unfold JMinvJt. f_equal. pose proof (inverses_thm eps m Bt Vm NM DF Pos s (J i) U1 S1) as (E1 & _).
  set (y := scaleBy (cDinv s) (Uiv m s (J j))). pose proof (inverses_thm eps m Bt Vm NM DF Pos s y U1 S1) as (_ & _ & E2 & _).
  change (cholSolve m s (J j)) with (Utiv m s y).
  transitivity (dotv n (mulMV n (cU s) (Uiv m s (J i))) (Utiv m s y)); [|apply dotv_ext; [exact E1 | intros k Hk; reflexivity]].
  change (cU s) with (transp (transp (cU s))). rewrite dotv_transp. rewrite (dotv_ext n _ (Uiv m s (J i)) _ y (fun k _ => eq_refl) E2).
  apply sumN_ext. intros k Hk. unfold sDUiJt, y, scaleBy. pose proof (piv k Hk) as P. pose proof (DI k Hk) as Q.
  assert (Dk : cDinv s k = / cD s k) by (apply (Rmult_eq_reg_r (cD s k)); [rewrite Q, Rinv_l; lra | lra]). rewrite Dk.
  pose proof (sqrt_lt_R0 _ P) as P2. replace (/ cD s k) with (/ (sqrt (cD s k) * sqrt (cD s k))) by (now rewrite sqrt_sqrt by lra). field. lra.
Qed.
Section B.
Variable nc : nat.
Variable J : nat -> nat -> R.
Variable mu : R.
Hypothesis WP : wellPosed nc n J mu.
Let G := JMinvJt m (sDUiJt m s J) mu.
Lemma HG i j : (i < nc)%nat -> (j < nc)%nat -> G i j = dotv n (J i) (cholSolve m s (J j)) + (if Nat.eqb i j then mu else 0).
Proof. intros _ _. apply JMinvJt_ok. Qed.
Lemma reusable : unitUpper n (cU s) /\ treeSparse m (cU s).
Proof. destruct (decompose_thm eps m Bt Vm NM DF Pos M A s0 Sy Sp HU U0 S0 piv0) as (U1 & S1 & _). now split. Qed.

Theorem forward_motion nle tau gamma : let r := forwardDynamics inv m s0 M nle tau nc J gamma mu in
  contactMotion n nc A J mu nle tau gamma (k_joint r) (k_multiplier r) /\
  sameV n (mulMV n A (k_residual r)) (fun k => tau k - nle k) /\
  unitUpper n (cU (k_chol r)) /\ treeSparse m (cU (k_chol r)).
Proof.
  cbv zeta. split; [|split; [|exact reusable]].
  - exact (kkt_solution n nc A Sy Po (cholSolve m s) sol_ok J mu WP G HG (lltSolve inv nc G) (fun P Q b => llt_ok nc G b P Q) nle tau gamma).
  - apply sol_ok.
Qed.
Theorem forward_unique nle tau gamma x y : contactMotion n nc A J mu nle tau gamma x y ->
  let r := forwardDynamics inv m s0 M nle tau nc J gamma mu in sameV n (k_joint r) x /\ sameV nc (k_multiplier r) y.
Proof.
  intros H r. apply (kkt_unique n nc A Po (cholSolve m s) J mu WP G HG nle tau gamma); [apply forward_motion | exact H].
Qed.
Theorem forward_gauss nle tau gamma z : mu = 0 -> (forall i, (i < nc)%nat -> mulMV n J z i + gamma i = 0) ->
  let r := forwardDynamics inv m s0 M nle tau nc J gamma mu in
  energy n A (fun k => k_joint r k - k_residual r k) <= energy n A (fun k => z k - k_residual r k).
Proof.
  intros M0 HC r. destruct (forward_motion nle tau gamma) as (H1 & H2 & _). fold r in H1, H2.
  exact (gauss n nc A Sy Po J mu nle tau gamma (k_joint r) (k_multiplier r) z (k_residual r) M0 H1 H2 HC).
Qed.
Theorem impulse_impact v0 rest res : let r := impulseDynamics inv m s0 M v0 nc J rest mu res in
  impact n nc A J mu rest v0 (k_joint r) (k_multiplier r) /\ unitUpper n (cU (k_chol r)) /\ treeSparse m (cU (k_chol r)).
Proof.
  cbv zeta. split; [|exact reusable].
  exact (imp_solution n nc A Sy Po (cholSolve m s) sol_ok J mu WP G HG (lltSolve inv nc G) (fun P Q b => llt_ok nc G b P Q) v0 rest).
Qed.
Theorem impulse_energy v0 rest res : -1 < rest -> let r := impulseDynamics inv m s0 M v0 nc J rest mu res in
  energy n A (k_joint r) = energy n A v0 - ((1 - rest) * energy n A (fun l => k_joint r l - v0 l) + mu * dotv nc (k_multiplier r) (k_multiplier r)) / (1 + rest).
Proof.
  intros Hr r. destruct (impulse_impact v0 rest res) as [H _]. fold r in H.
  rewrite (imp_energy n nc A Sy J mu v0 rest _ _ H Hr). unfold energy at 3. change (sumN n (fun k => (k_joint r k - v0 k) * mulMV n A (fun l => k_joint r l - v0 l) k)) with (dotv n (fun l => k_joint r l - v0 l) (mulMV n A (fun l => k_joint r l - v0 l))).
  field. lra.
Qed.
Theorem kkt_blocks : let K := getKKT inv m s nc G J in kktInverse n nc A J mu (topLeft K) (topRight K) (bottomLeft K) (bottomRight K).
Proof.
  exact (kkt_inverse n nc A Sy Po (cholSolve m s) sol_ok J mu WP G HG (lltSolve inv nc G) (fun P Q b => llt_ok nc G b P Q)).
Qed.
End B.
End A.

(* the variants that take the configuration *)
Hypothesis RM : regularMasses eps m.
Section Q.
Variables q v : vec.
Hypothesis Hq : validState m q.
Hypothesis PM : positiveM n (massMatrix m q).
Variable s0 : Chol.
Hypothesis U0 : unitUpper n (cU s0).
Hypothesis S0 : treeSparse m (cU s0).
Variable nc : nat.
Variable J : nat -> nat -> R.
Variable mu : R.
Hypothesis WP : wellPosed nc n J mu.
Theorem state_motion (HM : subtreeMass m 0 <> 0) d d' tau gamma : let r := forwardDynamicsState inv eps m d s0 q v tau nc J gamma mu in
  (forall k, (k < n)%nat -> rnea m d' q v (k_joint r) k = tau k + mulMV nc (transp J) (k_multiplier r) k) /\
  (forall i, (i < nc)%nat -> mulMV n J (k_joint r) i + gamma i + mu * k_multiplier r i = 0) /\
  (forall k, (k < n)%nat -> rnea m d' q v (k_residual r) k = tau k).
Proof.
  intros r. destruct (cat_dyn eps m Bt Vm NM RM DF HM d d' q v Hq) as [HU HN].
  destruct (forward_motion _ (massMatrix m q) s0 (mass_symm m q) (mass_sparse eps m Bt Vm NM q Hq) PM (crba_upper _ _ _ _ HU) U0 S0 nc J mu WP (ve (gl (computeAllTerms eps m d q v)) F_nle) tau gamma) as ((H1 & H2) & H3 & _).
  change (forwardDynamics inv m s0 (ma (gl (computeAllTerms eps m d q v)) F_M) (ve (gl (computeAllTerms eps m d q v)) F_nle) tau nc J gamma mu) with r in *.
  assert (Q : forall x k, (k < n)%nat -> rnea m d' q v x k = mulMV n (massMatrix m q) x k + ve (gl (computeAllTerms eps m d q v)) F_nle k).
  { intros x k Hk. rewrite (rnea_affine m W T Vm d' d' q v x k Hq Hk), (HN k Hk). reflexivity. }
  split; [intros k Hk; rewrite Q by exact Hk; now apply H1|]. split; [exact H2|].
  intros k Hk. rewrite Q by exact Hk. rewrite (H3 k Hk). ring.
Qed.
(* the accelerations are those of the articulated-body algorithm under the joint torques and the contact forces *)
Theorem state_aba (HM : subtreeMass m 0 <> 0) d d' tau gamma : let r := forwardDynamicsState inv eps m d s0 q v tau nc J gamma mu in
  sameV n (k_joint r) (abaWorld inv m d' q v (fun k => tau k + mulMV nc (transp J) (k_multiplier r) k)) /\
  sameV n (k_residual r) (abaWorld inv m d' q v tau).
Proof.
  intros r. destruct (state_motion HM d d' tau gamma) as (H1 & _ & H3). fold r in H1, H3.
  assert (Inj : forall x y, (forall k, (k < n)%nat -> rnea m d' q v x k = rnea m d' q v y k) -> sameV n x y).
  { intros x y E. set (dx := fun k => x k - y k). assert (X0 : forall k, (k < n)%nat -> dx k = 0).
    { apply (pd_inj n (massMatrix m q) dx PM). apply sumN_zero. intros k Hk. unfold dx. rewrite mulMV_sub.
      pose proof (E k Hk) as Q. rewrite !(rnea_affine m W T Vm d' d' q v _ k Hq Hk) in Q. rewrite !mulMV_dot. replace (dotv n (massMatrix m q k) x) with (dotv n (massMatrix m q k) y) by lra. ring. }
    intros k Hk. pose proof (X0 k Hk) as Q. unfold dx in Q. lra. }
  split; apply Inj; intros k Hk; [rewrite H1 by exact Hk | rewrite H3 by exact Hk]; symmetry; now apply (rnea_abaWorld m W T Vm NM inv HI q v Hq PM).
Qed.
Theorem state_impact d v0 rest res : exists e r, impulseDynamicsState inv eps m d s0 q v0 nc J rest mu res = Ok e r /\
  impact n nc (massMatrix m q) J mu rest v0 (k_joint r) (k_multiplier r).
Proof.
  destruct (crbaWorld_mass eps m W T Vm NM RM DF d q Hq) as (e & E & HU). unfold impulseDynamicsState. rewrite E. eexists e, _. split; [reflexivity|].
  exact (proj1 (impulse_impact _ (massMatrix m q) s0 (mass_symm m q) (mass_sparse eps m Bt Vm NM q Hq) PM (crba_upper _ _ _ _ HU) U0 S0 nc J mu WP v0 rest res)).
Qed.
Theorem state_kkt d : exists e K, computeKKT inv eps m d s0 q nc J mu = Ok e K /\
  kktInverse n nc (massMatrix m q) J mu (topLeft K) (topRight K) (bottomLeft K) (bottomRight K).
Proof.
  destruct (crbaWorld_mass eps m W T Vm NM RM DF d q Hq) as (e & E & HU). unfold computeKKT.
  destruct (Rlt_dec mu 0) as [N|N]; [exfalso; destruct WP as [P|[-> _]]; lra|]. rewrite E. eexists e, _. split; [reflexivity|].
  exact (kkt_blocks _ (massMatrix m q) s0 (mass_symm m q) (mass_sparse eps m Bt Vm NM q Hq) PM (crba_upper _ _ _ _ HU) U0 S0 nc J mu WP).
Qed.
End Q.
End CD.
Lemma kkt_throws inv eps m d s0 q nc J mu : mu < 0 -> computeKKT inv eps m d s0 q nc J mu = Throw d.
Proof. intros H. unfold computeKKT. destruct (Rlt_dec mu 0) as [_|N]; [reflexivity | contradiction]. Qed.

(* two rows, the unit vectors of two dofs *)
Definition exRows : nat -> nat -> R := fun i k => if Nat.eqb k (3 * i) then 1 else 0.
Lemma exRows_full : fullRows 2 10 exRows.
Proof.
  intros x H i Hi. assert (I : i = 0%nat \/ i = 1%nat) by lia. destruct I as [->| ->].
  - pose proof (H 0%nat ltac:(lia)) as E. unfold mulMV, transp, exRows in E. cbn in E. lra.
  - pose proof (H 3%nat ltac:(lia)) as E. unfold mulMV, transp, exRows in E. cbn in E. lra.
Qed.

Lemma exRows_wp (s : R) : wellPosed 2 (m_nv (exD (1/1000))) exRows 0 /\ wellPosed 2 (m_nv (exD (1/1000))) exRows 1.
Proof.
  destruct (exD_chol s) as (_ & _ & _ & _ & _ & _ & _ & _ & _ & _ & _ & _ & E). rewrite E. split; [right; split; [reflexivity | exact exRows_full] | left; lra].
Qed.
Lemma exD_contact (s : R) : let m := exD (1/1000) in Built (1/1000) m /\ validModel m /\ noMimic m /\ depthFirst m /\ noRigidJoint m /\ invertsPD elimInv /\
  symmetricM (m_nv m) (massMatrix m (exQ s)) /\ treeSparse m (massMatrix m (exQ s)) /\ positiveM (m_nv m) (massMatrix m (exQ s)) /\
  holdsUpper m (massMatrix m (exQ s)) (massMatrix m (exQ s)) /\ unitUpper (m_nv m) (cU cholInit) /\ treeSparse m (cU cholInit) /\
  wellPosed 2 (m_nv m) exRows 0 /\ wellPosed 2 (m_nv m) exRows 1.
Proof.
  intros m. destruct (exD_chol s) as (B & V & N & D & P & Sy & Sp & Po & HU & U0 & S0 & _). exact (conj B (conj V (conj N (conj D (conj P (conj elimInv_inverts (conj Sy (conj Sp (conj Po (conj HU (conj U0 (conj S0 (exRows_wp s))))))))))))).
Qed.
Lemma exD_contactState (s : R) : let m := exD (1/1000) in Built (1/1000) m /\ validModel m /\ noMimic m /\ depthFirst m /\ noRigidJoint m /\ invertsPD elimInv /\ regularMasses (1/1000) m /\
  validState m (exQ s) /\ positiveM (m_nv m) (massMatrix m (exQ s)) /\ unitUpper (m_nv m) (cU cholInit) /\ treeSparse m (cU cholInit) /\
  wellPosed 2 (m_nv m) exRows 0 /\ subtreeMass m 0 <> 0.
Proof.
  intros m. destruct (exD_chol s) as (B & V & N & D & P & Sy & Sp & Po & HU & U0 & S0 & _). destruct (exD_crba s (newData m)) as (_ & _ & _ & _ & RM & Q & _).
  exact (conj B (conj V (conj N (conj D (conj P (conj elimInv_inverts (conj RM (conj Q (conj Po (conj U0 (conj S0 (conj (proj1 (exRows_wp s)) exD_masses)))))))))))).
Qed.
