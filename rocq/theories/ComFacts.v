(* Energies. *)
Require Import Reals List Arith ZArith Lia Lra Bool.
From Verif Require Import Vec3 Spatial Inertia InertiaFacts Joints Spec_Joints Deriv JointFacts JointFacts2 Model Spec_Model ModelFacts ModelTree ModelFacts2 Sums Data Kinematics Spec_Kin Spec_Mass KinFacts KinFacts2 Spec_Dyn Rnea DynFacts DynFacts2 TreeSums MassFacts Crba CrbaFacts Spec_Com Com.
Import ListNotations.
Local Open Scope nat_scope.

(* two downward loops side by side *)
Lemma downward_rel {S1 S2} m (f : S1 -> nat -> S1) (g : S2 -> nat -> S2) (Rel : nat -> S1 -> S2 -> Prop) s t :
  1 <= m_njoints m -> Rel (m_njoints m) s t ->
  (forall i s t, 0 < i < m_njoints m -> Rel (i + 1) s t -> Rel i (f s i) (g t i)) -> Rel 1 (downward m f s) (downward m g t).
Proof.
  intros Hn H0 Hs. unfold downward.
  assert (G : forall k s t, k < m_njoints m -> Rel (k + 1) s t -> Rel 1 (fold_left f (rev (seq 1 k)) s) (fold_left g (rev (seq 1 k)) t)).
  { induction k as [|k IH]; intros s' t' Hk HI.
    - exact HI.
    - rewrite List.seq_S, rev_app_distr. cbn [rev app fold_left].
      apply IH; [lia|]. replace (k + 1) with (1 + k) by lia. apply Hs; [lia|].
      replace (1 + k + 1) with (S k + 1) by lia. exact HI. }
  apply G; [lia|]. now replace (m_njoints m - 1 + 1) with (m_njoints m) by lia.
Qed.

Section Energy.
Variable m : Model.
Hypothesis W : wellFormed m.
Hypothesis T : treeInv m.
Hypothesis Vm : validModel m.

Definition armSum (v : vec) (i : nat) : R := sumN (nvEOf m i) (fun k => armatureOf m (idx_v m i + k) * (v (idx_v m i + k)%nat * v (idx_v m i + k)%nat))%R.
Lemma armStep v i : 0 < i < m_njoints m ->
  sumN (jnvE (jm_type (joint m i))) (fun k => velSel m i (armatureOf m) k * (jointV m v i k * jointV m v i k))%R = armSum v i.
Proof.
  intros Hi. destruct (wf_joint _ W i Hi) as (_ & _ & E1 & _ & _ & _ & E4). unfold armSum. rewrite E4. apply sumN_ext. intros k _.
  unfold jointV, velSel, shift. now rewrite E1.
Qed.
Lemma onGs_rows d t f : rows (onGs d t f) = rows d. Proof. reflexivity. Qed.

Lemma kinetic_loop v d : let d' := upward m (kineticStep m (jointV m v)) d in
  gs (gl d') F_kinetic = (gs (gl d) F_kinetic + bodies m (fun i => inertia_vtiv (inertiaOf m i) (mo (rows d i) F_v)) + bodies m (armSum v))%R.
Proof.
  cbv zeta. unfold bodies.
  pose (Inv := fun k (s : Data) => rows s = rows d /\
    gs (gl s) F_kinetic = (gs (gl d) F_kinetic + sumN (k - 1) (fun j => inertia_vtiv (inertiaOf m (S j)) (mo (rows d (S j)) F_v)) + sumN (k - 1) (fun j => armSum v (S j)))%R).
  assert (H : Inv (m_njoints m) (upward m (kineticStep m (jointV m v)) d)).
  { apply upward_inv; [apply (wf_n _ W) | split; [reflexivity | cbn [sumN Nat.sub]; ring] |].
    intros i s Hi [I1 I2]. split; [exact I1|]. unfold kineticStep. rewrite (armStep v i Hi). unfold onGs. mem. rewrite I1, I2.
    replace (i + 1 - 1) with (S (i - 1)) by lia. cbn [sumN]. replace (S (i - 1)) with i by lia. ring. }
  apply H.
Qed.
Lemma potential_loop d : let d' := upward m (potentialStep m) d in
  gs (gl d') F_potential = (gs (gl d) F_potential - bodies m (fun i => mass (inertiaOf m i) * v3dot (se3_actPoint (pl (rows d i) F_oMi) (lever (inertiaOf m i))) (lin (m_gravity m))))%R.
Proof.
  cbv zeta. unfold bodies.
  pose (Inv := fun k (s : Data) => rows s = rows d /\
    gs (gl s) F_potential = (gs (gl d) F_potential - sumN (k - 1) (fun j => mass (inertiaOf m (S j)) * v3dot (se3_actPoint (pl (rows d (S j)) F_oMi) (lever (inertiaOf m (S j)))) (lin (m_gravity m))))%R).
  assert (H : Inv (m_njoints m) (upward m (potentialStep m) d)).
  { apply upward_inv; [apply (wf_n _ W) | split; [reflexivity | cbn [sumN Nat.sub]; ring] |].
    intros i s Hi [I1 I2]. split; [exact I1|]. unfold potentialStep, onGs. mem. rewrite I1, I2.
    replace (i + 1 - 1) with (S (i - 1)) by lia. cbn [sumN]. replace (S (i - 1)) with i by lia. unfold se3_actPoint. rewrite v3add_comm. ring. }
  apply H.
Qed.
Lemma mechanical_loop v d : let d' := upward m (fun d i => potentialStep m (kineticStep m (jointV m v) d i) i) d in
  gs (gl d') F_kinetic = gs (gl (upward m (kineticStep m (jointV m v)) d)) F_kinetic /\
  gs (gl d') F_potential = gs (gl (upward m (potentialStep m) d)) F_potential.
Proof.
  cbv zeta. unfold upward. 
  assert (G : forall l s s1 s2, rows s1 = rows s -> rows s2 = rows s -> gs (gl s) F_kinetic = gs (gl s1) F_kinetic -> gs (gl s) F_potential = gs (gl s2) F_potential ->
    let s' := fold_left (fun d i => potentialStep m (kineticStep m (jointV m v) d i) i) l s in
    gs (gl s') F_kinetic = gs (gl (fold_left (kineticStep m (jointV m v)) l s1)) F_kinetic /\
    gs (gl s') F_potential = gs (gl (fold_left (potentialStep m) l s2)) F_potential).
  { induction l as [|i l IH]; intros s s1 s2 R1 R2 K P; [now split|]. cbn [fold_left]. apply IH.
    - exact R1.
    - exact R2.
    - unfold potentialStep, kineticStep, onGs. mem. now rewrite K, R1.
    - unfold potentialStep, kineticStep, onGs. mem. now rewrite P, R2. }
  apply G; reflexivity.
Qed.

Theorem kinetic_energy d q v : validState m q ->
  computeKineticEnergy m d q v = (/2 * (kineticForm m q v v + bodies m (armSum v)))%R.
Proof.
  intros Hq. unfold computeKineticEnergy, kineticData.
  set (d1 := onGs (forwardKinematics1 m d q v) F_kinetic (fun _ => 0%R)).
  pose proof (kinetic_loop v d1) as H. cbv zeta in H. set (d2 := upward m _ d1) in *. unfold onGs at 1. mem. rewrite H.
  unfold d1 at 1, onGs. mem. unfold kineticForm, bodies.
  rewrite (sumN_ext (m_njoints m - 1) (fun k => inertia_vtiv (inertiaOf m (S k)) (mo (rows d1 (S k)) F_v))
     (fun k => v6dot (bodyVel m q v (S k)) (inertia_mul (inertiaOf m (S k)) (bodyVel m q v (S k))))).
  { lra. }
  intros k Hk. rewrite inertia_vtiv_spec. unfold d1. rewrite onGs_rows. destruct (fk1_vel m W d q v) as (H0 & H1 & _).
  now rewrite (vel_body m W T Vm q v _ Hq H0 H1 (S k) ltac:(lia)).
Qed.
Theorem potential_energy d q :
  computePotentialEnergy m d q = (- bodies m (fun i => mass (inertiaOf m i) * v3dot (lin (m_gravity m)) (bodyCom m q i)))%R.
Proof.
  unfold computePotentialEnergy, potentialData.
  set (d1 := onGs (forwardKinematics0 m d q) F_potential (fun _ => 0%R)).
  pose proof (potential_loop d1) as H. cbv zeta in H. rewrite H. unfold d1 at 1, onGs. mem.
  unfold bodies. rewrite (sumN_ext (m_njoints m - 1) _ (fun k => mass (inertiaOf m (S k)) * v3dot (lin (m_gravity m)) (bodyCom m q (S k)))%R); [ring|].
  intros k Hk. unfold d1. rewrite onGs_rows. destruct (fk0_placed m W T d q (S k) ltac:(lia)) as [_ ->]. unfold bodyCom. f_equal. unfold v3dot. ring.
Qed.
Lemma fk1_fk0_oMi d d' q v i : 0 < i < m_njoints m -> pl (rows (forwardKinematics1 m d q v) i) F_oMi = pl (rows (forwardKinematics0 m d' q) i) F_oMi.
Proof. intros Hi. destruct (fk0_placed m W T d' q i Hi) as [_ ->]. now destruct (fk1_placed m W T d q v i Hi) as [_ ->]. Qed.
Theorem mechanical_energy d d' d'' q v : 
  computeMechanicalEnergy m d q v = (computeKineticEnergy m d' q v + computePotentialEnergy m d'' q)%R.
Proof.
  unfold computeMechanicalEnergy, mechanicalData.
  set (d1 := onGs (onGs (forwardKinematics1 m d q v) F_kinetic _) F_potential _).
  destruct (mechanical_loop v d1) as [K P]. cbv zeta in K, P. set (d2 := upward m _ d1) in *.
  unfold onGs. mem. rewrite K, P.
  unfold computeKineticEnergy, kineticData, computePotentialEnergy, potentialData.
  set (e1 := onGs (forwardKinematics1 m d' q v) F_kinetic _). set (e2 := onGs (forwardKinematics0 m d'' q) F_potential _).
  pose proof (kinetic_loop v d1) as A1. pose proof (potential_loop d1) as A2. pose proof (kinetic_loop v e1) as A3. pose proof (potential_loop e2) as A4.
  cbv zeta in A1, A2, A3, A4. unfold onGs. mem. rewrite A1, A2, A3, A4.
  assert (R : forall t, t = F_kinetic \/ t = F_potential -> gs (gl d1) t = 0%R /\ (t = F_kinetic -> gs (gl e1) t = 0%R) /\ (t = F_potential -> gs (gl e2) t = 0%R)).
  { intros t [-> | ->]; unfold d1, e1, e2, onGs; mem; repeat split; congruence. }
  destruct (R F_kinetic (or_introl eq_refl)) as (-> & -> & _); [|reflexivity].
  destruct (R F_potential (or_intror eq_refl)) as (-> & _ & ->); [|reflexivity].
  f_equal.
  - f_equal. f_equal. f_equal. unfold bodies. apply sumN_ext. intros k Hk. unfold d1, e1. rewrite !onGs_rows. 
    destruct (fk1_vel m W d q v) as (G0 & G1 & _). destruct (fk1_vel m W d' q v) as (G0' & G1' & _).
    assert (E : forall i, i < m_njoints m -> mo (rows (forwardKinematics1 m d q v) i) F_v = mo (rows (forwardKinematics1 m d' q v) i) F_v).
    { refine (tree_ind m _ W _ _); [now rewrite G0, G0'|]. intros i Hi IH. now rewrite (G1 i Hi), (G1' i Hi), IH. }
    now rewrite E by lia.
  - f_equal. unfold bodies. apply sumN_ext. intros k Hk. unfold d1, e2. rewrite !onGs_rows. now rewrite (fk1_fk0_oMi d d'' q v (S k)) by lia.
Qed.
End Energy.
