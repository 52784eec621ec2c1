(* The statements of Prop_Chol, and the example. *)
Require Import Reals List Arith ZArith Lia Lra Bool.
From Verif Require Import Vec3 Spatial Inertia Joints JointFacts Model Spec_Model ModelFacts ModelTree ModelFacts2 Data Kinematics Spec_Kin KinFacts KinFacts3 Sums Spec_Dyn DynFacts TreeSums Spec_Mass MassFacts Crba CrbaFacts CrbaFacts2 CrbaFacts3 CrbaFacts4 Jacobian Spec_Jac Spec_Aba Spec_Chol Cholesky CholFacts CholFacts2 CholFacts3 CholFacts4 DynFacts2.
Import ListNotations.
Local Open Scope nat_scope.

Lemma cholInit_shape m : unitUpper (m_nv m) (cU cholInit) /\ ((forall k, k < m_nv m -> sameBranch m k k) -> treeSparse m (cU cholInit)).
Proof.
  split.
  - intros k l _ _. cbn. split; [intros ->; now rewrite Nat.eqb_refl|]. intros H. destruct (Nat.eqb_spec k l); [lia|reflexivity].
  - intros HS k l Hk _ N. cbn. destruct (Nat.eqb_spec k l) as [<-|]; [exfalso; apply N, HS, Hk | reflexivity].
Qed.
Section C.
Variables (eps : R) (m : Model).
Hypothesis B : Built eps m.
Hypothesis Vm : validModel m.
Hypothesis NM : noMimic m.
Hypothesis DF : depthFirst m.
Hypothesis Pos : noRigidJoint m.
Let ok := tables_ok eps m B Vm NM DF Pos.
Let W := Built_wf eps m B.
Let T := Built_tree eps m B.
Lemma init_ok : unitUpper (m_nv m) (cU cholInit) /\ treeSparse m (cU cholInit).
Proof. destruct (cholInit_shape m) as [H1 H2]. split; [exact H1|]. apply H2. intros k Hk. now apply (self_branch eps m B NM). Qed.
Theorem decompose_thm M A s0 : symmetricM (m_nv m) A -> treeSparse m A -> holdsUpper m M A -> unitUpper (m_nv m) (cU s0) -> treeSparse m (cU s0) ->
  let s := decompose m M s0 in (forall k, k < m_nv m -> cD s k <> 0%R) ->
  unitUpper (m_nv m) (cU s) /\ treeSparse m (cU s) /\ (forall k, k < m_nv m -> (cDinv s k * cD s k = 1)%R) /\
  forall k l, k < m_nv m -> l < m_nv m -> udut (m_nv m) (cU s) (cD s) k l = A k l.
Proof.
  intros Sy Sp Hu U0 S0 s HD. pose proof (dec_shaped eps m B Vm NM DF Pos M s0 (conj U0 S0)) as Sh. apply (shaped_spec eps m B Vm NM DF Pos) in Sh. destruct Sh as [S1 S2].
  split; [exact S1|]. split; [exact S2|]. split; [apply (dec_dinv eps m B Vm NM DF Pos M s0 HD)|]. apply (dec_fact eps m B Vm NM DF Pos M A Sy Sp Hu s0 (conj U0 S0) HD).
Qed.
Theorem pivots_thm M A s0 : symmetricM (m_nv m) A -> treeSparse m A -> holdsUpper m M A -> unitUpper (m_nv m) (cU s0) -> treeSparse m (cU s0) ->
  positiveM (m_nv m) A -> forall k, k < m_nv m -> (0 < cD (decompose m M s0) k)%R.
Proof. intros Sy Sp Hu U0 S0. apply (dec_pos eps m B Vm NM DF Pos M A Sy Sp Hu s0 (conj U0 S0)). Qed.
Lemma products_thm s v : unitUpper (m_nv m) (cU s) -> treeSparse m (cU s) ->
  sameV (m_nv m) (Uv m s v) (mulMV (m_nv m) (cU s) v) /\ sameV (m_nv m) (Utv m s v) (mulMV (m_nv m) (transp (cU s)) v) /\
  sameV (m_nv m) (UDUtv m s v) (mulMV (m_nv m) (udut (m_nv m) (cU s) (cD s)) v).
Proof.
  intros U0 S0. pose proof (proj2 (shaped_spec eps m B Vm NM DF Pos (cU s)) (conj U0 S0)) as Sh.
  split; [apply (Uv_mul m ok s Sh)|]. split; [apply (Utv_mul m ok s Sh) | apply (UDUtv_mul m ok s Sh)].
Qed.
Lemma inverses_thm s v : unitUpper (m_nv m) (cU s) -> treeSparse m (cU s) ->
  sameV (m_nv m) (mulMV (m_nv m) (cU s) (Uiv m s v)) v /\ sameV (m_nv m) (Uiv m s (mulMV (m_nv m) (cU s) v)) v /\
  sameV (m_nv m) (mulMV (m_nv m) (transp (cU s)) (Utiv m s v)) v /\ sameV (m_nv m) (Utiv m s (mulMV (m_nv m) (transp (cU s)) v)) v.
Proof.
  intros U0 S0. pose proof (proj2 (shaped_spec eps m B Vm NM DF Pos (cU s)) (conj U0 S0)) as Sh.
  split; [apply (Uiv_mul m ok s Sh)|]. split; [apply (Uiv_inv m ok s Sh)|]. split; [apply (Utiv_mul m ok s Sh) | apply (Utiv_inv m ok s Sh)].
Qed.
Lemma Mv_thm M A vin vout : symmetricM (m_nv m) A -> treeSparse m A -> holdsUpper m M A -> sameV (m_nv m) (Mv m M vin vout) (mulMV (m_nv m) A vin).
Proof. intros Sy Sp Hu. apply (Mv_mul m ok M A Sy (HM' eps m B Vm NM DF Pos M A Hu) (HA' eps m B Vm NM DF Pos A Sp)). Qed.
Lemma solve_thm M A s0 v : symmetricM (m_nv m) A -> treeSparse m A -> holdsUpper m M A -> unitUpper (m_nv m) (cU s0) -> treeSparse m (cU s0) ->
  let s := decompose m M s0 in (forall k, k < m_nv m -> cD s k <> 0%R) ->
  sameV (m_nv m) (mulMV (m_nv m) A (cholSolve m s v)) v /\ sameV (m_nv m) (cholSolve m s (mulMV (m_nv m) A v)) v.
Proof.
  intros Sy Sp Hu U0 S0 s HD. pose proof (dec_shaped eps m B Vm NM DF Pos M s0 (conj U0 S0)) as Sh. pose proof (dec_dinv eps m B Vm NM DF Pos M s0 HD) as Di.
  pose proof (dec_fact eps m B Vm NM DF Pos M A Sy Sp Hu s0 (conj U0 S0) HD) as F.
  split; [apply (solve_A m ok A s Sh Di F) | apply (solve_A_inv m ok A s Sh Di F)].
Qed.
Lemma minv_thm M A s0 C : symmetricM (m_nv m) A -> treeSparse m A -> holdsUpper m M A -> unitUpper (m_nv m) (cU s0) -> treeSparse m (cU s0) ->
  let s := decompose m M s0 in (forall k, k < m_nv m -> cD s k <> 0%R) ->
  identityM (m_nv m) (matMul (m_nv m) A (computeMinv m s C)) /\ symmetricM (m_nv m) (computeMinv m s C).
Proof.
  intros Sy Sp Hu U0 S0 s HD. pose proof (dec_shaped eps m B Vm NM DF Pos M s0 (conj U0 S0)) as Sh. pose proof (dec_dinv eps m B Vm NM DF Pos M s0 HD) as Di.
  pose proof (dec_fact eps m B Vm NM DF Pos M A Sy Sp Hu s0 (conj U0 S0) HD) as F.
  split; [apply (computeMinv_inv m ok A Sy s Sh Di F)|]. intros k l Hk Hl. apply (computeMinv_sym m ok s Sh); assumption.
Qed.
(* the joint-space inertia matrix *)
Lemma mass_sparse q : validState m q -> treeSparse m (massMatrix m q).
Proof.
  intros Hq k l Hk Hl N. destruct (Nat.le_gt_cases k l).
  - now apply (mass_off m W T Vm NM).
  - rewrite massMatrix_sym. apply (mass_off m W T Vm NM); try assumption; try lia. intros N'. apply N. now apply branch_sym.
Qed.
Lemma mass_symm q : symmetricM (m_nv m) (massMatrix m q).
Proof. intros k l _ _. apply massMatrix_sym. Qed.
Lemma mass_positive q : validState m q -> solid m -> rotors m -> regularJoints m q -> positiveM (m_nv m) (massMatrix m q).
Proof. intros Hq So Ro Re x Hx. exact (mass_pd m W T Vm q x Hq NM So Ro Re Hx). Qed.
Lemma crba_upper q d d' : upperIsMass m q d d' -> holdsUpper m (ma (gl d') F_M) (massMatrix m q).
Proof. intros H k l Hkl N. now apply H. Qed.
Lemma crba_thm d q v : regularMasses eps m -> validState m q -> solid m -> rotors m -> regularJoints m q ->
  forall d', (crbaWorld eps m d q = Ok d' tt \/ crbaLocal eps m d q = Ok d' tt) ->
  let s := decompose m (ma (gl d') F_M) cholInit in
  (forall k, k < m_nv m -> (0 < cD s k)%R) /\ (forall k l, k < m_nv m -> l < m_nv m -> udut (m_nv m) (cU s) (cD s) k l = massMatrix m q k l) /\
  sameV (m_nv m) (mulMV (m_nv m) (massMatrix m q) (cholSolve m s v)) v.
Proof.
  intros RM Hq So Ro Re d' Hd. assert (H : upperIsMass m q d d').
  { destruct Hd as [Hd|Hd].
    - destruct (crbaWorld_mass eps m W T Vm NM RM DF d q Hq) as (d2 & E & H). rewrite Hd in E. injection E as <-. exact H.
    - destruct (crbaLocal_mass eps m W T Vm NM RM DF d q Hq) as (d2 & E & H). rewrite Hd in E. injection E as <-. exact H. }
  apply crba_upper in H. destruct init_ok as [U0 S0]. pose proof (mass_sparse q Hq) as Sp. pose proof (mass_symm q) as Sy. pose proof (mass_positive q Hq So Ro Re) as Po.
  intros s. pose proof (pivots_thm _ _ cholInit Sy Sp H U0 S0 Po) as P. assert (HD : forall k, k < m_nv m -> cD s k <> 0%R) by (intros k Hk; apply Rgt_not_eq, P, Hk).
  split; [exact P|]. split; [apply (decompose_thm _ _ cholInit Sy Sp H U0 S0 HD) | apply (solve_thm _ _ cholInit v Sy Sp H U0 S0 HD)].
Qed.
End C.
Lemma exD_norigid eps : noRigidJoint (exD eps).
Proof.
  intros i Hi. destruct (exD_shape eps) as (E & _). rewrite E in Hi. assert (0 < i < 4) by exact Hi.
  assert (H3 : i = 1 \/ i = 2 \/ i = 3) by lia. destruct H3 as [H3|H3]; [|destruct H3 as [H3|H3]]; subst i; cbn; lia.
Qed.
Lemma exD_chol (s : R) : let m := exD (1/1000) in let q := exQ s in
  Built (1/1000) m /\ validModel m /\ noMimic m /\ depthFirst m /\ noRigidJoint m /\ symmetricM (m_nv m) (massMatrix m q) /\ treeSparse m (massMatrix m q) /\
  positiveM (m_nv m) (massMatrix m q) /\ holdsUpper m (massMatrix m q) (massMatrix m q) /\ unitUpper (m_nv m) (cU cholInit) /\ treeSparse m (cU cholInit) /\
  (forall k, k < m_nv m -> cD (decompose m (massMatrix m q) cholInit) k <> 0%R) /\ m_nv m = 10.
Proof.
  intros m q. destruct (exD_all s) as (B & V & N & D & RM & Q & So & Ro & Re & _ & E). pose proof (exD_norigid (1/1000)) as P.
  pose proof (mass_sparse _ _ B V N q Q) as Sp. pose proof (mass_symm m q) as Sy. pose proof (mass_positive _ _ B V N q Q So Ro Re) as Po.
  assert (Hu : holdsUpper m (massMatrix m q) (massMatrix m q)) by (intros k l _ _; reflexivity).
  destruct (init_ok _ _ B N) as [U0 S0].
  repeat (split; [assumption|]). split; [|exact E].
  intros k Hk. apply Rgt_not_eq. exact (pivots_thm _ m B V N D P _ _ cholInit Sy Sp Hu U0 S0 Po k Hk).
Qed.
Lemma exD_crba (s : R) (d : Data) : let m := exD (1/1000) in noRigidJoint m /\ solid m /\ rotors m /\ regularJoints m (exQ s) /\ regularMasses (1/1000) m /\ validState m (exQ s) /\
  exists d', crbaWorld (1/1000) m d (exQ s) = Ok d' tt.
Proof.
  intros m. destruct (exD_all s) as (B & V & N & D & RM & Q & So & Ro & Re & _ & E). split; [apply exD_norigid|]. repeat (split; [assumption|]).
  destruct (crbaWorld_mass (1/1000) m (Built_wf _ m B) (Built_tree _ m B) V N RM D d (exQ s) Q) as (d' & H & _). now exists d'.
Qed.
