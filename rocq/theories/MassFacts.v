(* Body velocities in the world and the kinetic-energy form of trees without mimic joints. *)
Require Import Reals List Arith Lia Lra Bool.
From Verif Require Import Vec3 Spatial Inertia InertiaFacts Joints Spec_Joints Deriv JointFacts JointFacts2 Model Spec_Model ModelFacts ModelTree ModelFacts2 Sums Data Kinematics Spec_Kin Spec_Mass KinFacts KinFacts2 Spec_Dyn DynFacts DynFacts2 TreeSums.
Import ListNotations.
Local Open Scope nat_scope.

Definition worldVel (m : Model) (q w : vec) (b : nat) : V6 := motion_act (worldPl m q b) (bodyVel m q w b).
Definition worldInertia (m : Model) (q : vec) (b : nat) : Inertia := inertia_act (worldPl m q b) (inertiaOf m b).
(* column of the joint Jacobian, in the world *)
Definition worldCol (m : Model) (q : vec) (i a : nat) : V6 := motion_act (worldPl m q i) (nth a (jS (jointAt m q noVel i)) v6zero).

Lemma Smul_delta S a : Smul S (unitv a) = nth a S v6zero.
Proof.
  revert a. induction S as [|c S IH]; intros a; [destruct a; reflexivity|]. cbn [Smul]. destruct a as [|a].
  - unfold unitv at 1. cbn [Nat.eqb nth]. rewrite (Smul_ext _ _ (fun _ => 0%R)) by reflexivity. rewrite Smul_0. sring.
  - unfold unitv at 1. cbn [Nat.eqb nth]. change (shift 1 (unitv (Datatypes.S a))) with (unitv a). rewrite IH. generalize (nth a S v6zero). sring.
Qed.

Section Mass.
Variable m : Model.
Hypothesis W : wellFormed m.
Hypothesis T : treeInv m.
Hypothesis Vm : validModel m.

Lemma worldVel_0 q w : worldVel m q w 0 = v6zero.
Proof. unfold worldVel. rewrite (bodyVel_0 m W T). apply motion_act_0. Qed.
Lemma worldVel_step q w b : validState m q -> 0 < b < m_njoints m ->
  worldVel m q w b = v6add (worldVel m q w (parent m b)) (motion_act (worldPl m q b) (jointTwist m q w b)).
Proof.
  intros Hq Hb. pose proof (wf_parent _ W b Hb) as Hp. unfold worldVel. rewrite (bodyVel_step m W T Vm q w b Hq Hb), motion_act_add, v6add_comm.
  f_equal. rewrite (worldPl_step m W T q b Hb) at 1.
  rewrite motion_act_mul by (apply (worldPl_rot m W T Vm); [exact Hq | lia]). rewrite motion_act_actInv by (apply (relPl_rot m Vm q b Hq Hb)). reflexivity.
Qed.
Lemma kineticForm_world q w w' : validState m q ->
  kineticForm m q w w' = bodies m (fun b => v6dot (worldVel m q w b) (inertia_mul (worldInertia m q b) (worldVel m q w' b))).
Proof.
  intros Hq. unfold kineticForm, bodies. apply sumN_ext. intros k Hk. unfold worldVel, worldInertia.
  pose proof (worldPl_rot m W T Vm q (S k) Hq ltac:(lia)) as HR. rewrite inertia_act_mul by exact HR.
  rewrite <- act_dot_dual, motion_actInv_act by apply HR. reflexivity.
Qed.

(* sizes without mimic joints *)
Lemma nvE_nv i : isMimic (joint m i) = false -> 0 < i < m_njoints m -> nvEOf m i = nvOf m i.
Proof.
  intros Hm Hi. destruct (wf_joint _ W i Hi) as (_ & _ & _ & _ & _ & <- & <-). destruct (Vm i Hi) as [Vj _].
  rewrite <- (rnv_jnvE _ Vj). apply rnv_notMimic. unfold isMimic in Hm. unfold notMimic. destruct (jm_type (joint m i)); try exact I; discriminate.
Qed.
Hypothesis NM : noMimic m.
Lemma nvEs_nvs : m_nvEs m = m_nvs m.
Proof.
  destruct (wf_lengths _ W) as (L1&L2&L3&L4&L5&L6&L7&L8&L9&L10&L11&L12&L13&L14&L15). destruct (wf_zero _ W) as (Z1&Z2&Z3).
  apply (nth_ext _ _ 0 0); [congruence|]. intros i Hi. rewrite L9 in Hi. destruct (Nat.eq_dec i 0) as [->|Hn]; [unfold nvEOf, nvOf in *; congruence|].
  apply nvE_nv; [apply NM|]; lia.
Qed.
Lemma idx_vE_v i : 0 < i < m_njoints m -> idx_vE m i = idx_v m i.
Proof. intros Hi. rewrite (wf_rangeE _ W i Hi), nvEs_nvs. symmetry. apply (wf_range _ W i Hi (NM i Hi)). Qed.
Lemma idx_v_next i : 0 < i -> S i < m_njoints m -> idx_v m (S i) = idx_v m i + nvOf m i.
Proof.
  intros H0 Hi. destruct (wf_range _ W (S i) ltac:(lia) (NM (S i) ltac:(lia))) as [_ ->].
  destruct (wf_range _ W i ltac:(lia) (NM i ltac:(lia))) as [_ ->]. unfold nvOf. apply sum_firstn_S.
  destruct (wf_lengths _ W) as (L1&L2&L3&L4&L5&L6&L7&_). lia.
Qed.
Lemma idx_v_mono i j : 0 < i -> i < j -> j < m_njoints m -> idx_v m i + nvOf m i <= idx_v m j.
Proof.
  intros H0 Hij. induction Hij as [|j Hij IH]; intros Hj; [rewrite idx_v_next by lia; lia|].
  specialize (IH ltac:(lia)). rewrite (idx_v_next j) by lia. lia.
Qed.
Lemma idx_v_bound i : 0 < i < m_njoints m -> idx_v m i + nvOf m i <= m_nv m.
Proof.
  intros Hi. destruct (wf_range _ W i Hi (NM i Hi)) as [_ ->]. destruct (wf_total _ W) as (_ & -> & _).
  destruct (wf_lengths _ W) as (L1&L2&L3&L4&L5&L6&L7&_). unfold nvOf. rewrite <- sum_firstn_S by lia.
  rewrite <- (firstn_all (m_nvs m)) at 2. apply sum_firstn_mono. lia.
Qed.
(* the joint of a dof *)
Lemma dof_owner k : k < m_nv m -> exists i a, 0 < i < m_njoints m /\ a < nvOf m i /\ k = idx_v m i + a.
Proof.
  intros Hk. destruct (proj2 (wf_cover m W) k Hk) as (i & (Hi & Hm & Hr) & _). exists i, (k - idx_v m i).
  split; [exact Hi|]. split; lia.
Qed.
Lemma dof_unique i a j c : 0 < i < m_njoints m -> 0 < j < m_njoints m -> a < nvOf m i -> c < nvOf m j -> idx_v m i + a = idx_v m j + c -> i = j /\ a = c.
Proof.
  intros Hi Hj Ha Hc E. destruct (Nat.lt_trichotomy i j) as [H|[->|H]].
  - pose proof (idx_v_mono i j ltac:(lia) H ltac:(lia)). lia.
  - lia.
  - pose proof (idx_v_mono j i ltac:(lia) H ltac:(lia)). lia.
Qed.
Lemma jS_len q v i : 0 < i < m_njoints m -> length (jS (jointAt m q v i)) = nvOf m i.
Proof.
  intros Hi. unfold jointAt. destruct (Vm i Hi) as [Vj _]. rewrite (jS_lengthE _ _ _ Vj).
  destruct (wf_joint _ W i Hi) as (_ & _ & _ & _ & _ & _ & ->). apply nvE_nv; auto.
Qed.
Lemma twist_unit q i a b : 0 < i < m_njoints m -> a < nvOf m i -> 0 < b < m_njoints m ->
  jointTwist m q (unitv (idx_v m i + a)) b = if i =? b then nth a (jS (jointAt m q noVel i)) v6zero else v6zero.
Proof.
  intros Hi Ha Hb. unfold jointTwist. destruct (Nat.eqb_spec i b) as [<-|Hn].
  - rewrite <- Smul_delta. apply Smul_ext. intros k Hk. unfold shift, unitv.
    destruct (Nat.eqb_spec (idx_v m i + a) (idx_v m i + k)), (Nat.eqb_spec a k); try lia; reflexivity.
  - rewrite (Smul_ext _ _ (fun _ => 0%R)); [apply Smul_0|]. intros k Hk. rewrite (jS_len q noVel b Hb) in Hk. unfold shift, unitv.
    destruct (Nat.eqb_spec (idx_v m i + a) (idx_v m b + k)) as [E|]; [|reflexivity].
    destruct (dof_unique i a b k Hi Hb Ha Hk E). congruence.
Qed.
Lemma unit_vel q i a b : validState m q -> 0 < i < m_njoints m -> a < nvOf m i -> b < m_njoints m ->
  worldVel m q (unitv (idx_v m i + a)) b = if anc m i b then worldCol m q i a else v6zero.
Proof.
  intros Hq Hi Ha. revert b. refine (tree_ind m _ W _ _).
  - rewrite worldVel_0, (anc_0 m W T). destruct (Nat.eqb_spec i 0); [lia | reflexivity].
  - intros b Hb IH. rewrite (worldVel_step q _ b Hq Hb), IH, (anc_step m W T i b Hb), (twist_unit q i a b Hi Ha Hb).
    pose proof (wf_parent _ W b Hb) as Hp. destruct (Nat.eqb_spec i b) as [<-|Hn]; cbn [orb].
    + destruct (anc m i (parent m i)) eqn:E; [apply (anc_le m W T) in E; lia|]. rewrite v6add_0_l. reflexivity.
    + rewrite motion_act_0, v6add_0_r. reflexivity.
Qed.
Lemma bodies_all g : g 0 = 0%R -> bodies m g = sumN (m_njoints m) g.
Proof.
  intros H. unfold bodies. pose proof (wf_n _ W). replace (m_njoints m) with (S (m_njoints m - 1)) at 2 by lia.
  rewrite sumN_shift1, H. ring.
Qed.
Lemma form_unit q i a j c : validState m q -> 0 < i < m_njoints m -> a < nvOf m i -> 0 < j < m_njoints m -> c < nvOf m j -> anc m i j = true ->
  kineticForm m q (unitv (idx_v m i + a)) (unitv (idx_v m j + c)) =
  subSum m j (fun b => v6dot (worldCol m q i a) (inertia_mul (worldInertia m q b) (worldCol m q j c))).
Proof.
  intros Hq Hi Ha Hj Hc A. rewrite kineticForm_world by exact Hq. rewrite bodies_all.
  - unfold subSum. apply sumN_ext. intros b Hb. rewrite (unit_vel q i a b), (unit_vel q j c b) by assumption.
    destruct (anc m j b) eqn:E; [now rewrite (anc_trans m W T i j b Hb A E)|]. rewrite inertia_mul_0. apply v6dot_0_r.
  - rewrite worldVel_0. apply v6dot_0_l.
Qed.
Lemma form_unit_off q i a j c : validState m q -> 0 < i < m_njoints m -> a < nvOf m i -> 0 < j < m_njoints m -> c < nvOf m j ->
  anc m i j = false -> anc m j i = false -> kineticForm m q (unitv (idx_v m i + a)) (unitv (idx_v m j + c)) = 0%R.
Proof.
  intros Hq Hi Ha Hj Hc A B. rewrite kineticForm_world by exact Hq. apply sumN_zero. intros k Hk.
  rewrite (unit_vel q i a _), (unit_vel q j c _) by (assumption || lia).
  destruct (anc m i (S k)) eqn:E1; [|apply v6dot_0_l]. destruct (anc m j (S k)) eqn:E2; [|rewrite inertia_mul_0; apply v6dot_0_r].
  destruct (anc_comparable m W T i j (S k) ltac:(lia) E1 E2); congruence.
Qed.
End Mass.
