(* Equality operators of joints, frames and models. *)
Require Import Reals String List Arith Bool Lia.
From Verif Require Import Vec3 Spatial Inertia Joints Spec_Joints Model Spec_Model ModelFacts ModelTree.
Import ListNotations.
Local Open Scope nat_scope.

(* operator== on scalars (no NaN), Eigen vectors and matrices, and std::vector *)
Definition reqb (x y : R) : bool := if Req_EM_T x y then true else false.
Definition v3eqb (a b : V3) : bool := reqb (vx a) (vx b) && reqb (vy a) (vy b) && reqb (vz a) (vz b).
Definition m3eqb (a b : M3) : bool :=
  reqb (m00 a) (m00 b) && reqb (m01 a) (m01 b) && reqb (m02 a) (m02 b) &&
  reqb (m10 a) (m10 b) && reqb (m11 a) (m11 b) && reqb (m12 a) (m12 b) &&
  reqb (m20 a) (m20 b) && reqb (m21 a) (m21 b) && reqb (m22 a) (m22 b).
(* spatial/motion-dense.hpp 83-87 isEqual_impl *)
Definition v6eqb (a b : V6) : bool := v3eqb (lin a) (lin b) && v3eqb (ang a) (ang b).
(* spatial/se3-tpl.hpp 332-336 isEqual *)
Definition se3eqb (a b : SE3) : bool := m3eqb (rot a) (rot b) && v3eqb (trans a) (trans b).
(* spatial/symmetric3.hpp 135-139 operator==: the six stored coefficients *)
Definition sym3eqb (a b : Sym3) : bool :=
  reqb (s0 a) (s0 b) && reqb (s1 a) (s1 b) && reqb (s2 a) (s2 b) &&
  reqb (s3 a) (s3 b) && reqb (s4 a) (s4 b) && reqb (s5 a) (s5 b).
(* spatial/inertia.hpp 620-623 isEqual *)
Definition inertiaEqb (a b : Inertia) : bool := reqb (mass a) (mass b) && v3eqb (lever a) (lever b) && sym3eqb (inertia a) (inertia b).
Fixpoint leqb {A} (e : A -> A -> bool) (a b : list A) : bool :=
  match a, b with [], [] => true | x :: a, y :: b => e x y && leqb e a b | _, _ => false end.

(* The comparison of two joints of the same C++ type.  joint-revolute-unaligned.hpp 651-655,
   joint-revolute-unbounded-unaligned.hpp 185-189, joint-prismatic-unaligned.hpp 636-640,
   joint-helical-unaligned.hpp 693-698, joint-universal.hpp 470-475.  Aligned joints carry the axis in their type and
   use the default isEqual (joint-model-base.hpp 274-277), which compares indexes only: the pitch of JointModelHelical
   is not compared. *)
Definition joint1Eqb (a b : Joint1) : bool :=
  match a, b with
  | JRevolute x, JRevolute y | JRUB x, JRUB y | JPrismatic x, JPrismatic y => x =? y
  | JHelical x _, JHelical y _ => x =? y
  | JRevoluteUnaligned x, JRevoluteUnaligned y | JRUBUnaligned x, JRUBUnaligned y
  | JPrismaticUnaligned x, JPrismaticUnaligned y => v3eqb x y
  | JHelicalUnaligned x p, JHelicalUnaligned y p' => v3eqb x y && reqb p p'
  | JFreeFlyer, JFreeFlyer | JSpherical, JSpherical | JSphericalZYX, JSphericalZYX | JPlanar, JPlanar
  | JTranslation, JTranslation => true
  | JUniversal x x', JUniversal y y' => v3eqb x y && v3eqb x' y'
  | _, _ => false
  end.
(* joint-mimic.hpp 584-885 has no isEqual of its own: wrapped joint, scaling and offset are not compared.
   joint-composite.hpp 421-436: sizes, joints and placements are compared. *)
Fixpoint jointEqb (a b : Joint) : bool :=
  match a, b with
  | JSimple x, JSimple y => joint1Eqb x y
  | JMimic _ _ _, JMimic _ _ _ => true
  | JComposite l, JComposite l' =>
      (fix go (l l' : list (SE3 * Joint)) : bool :=
         match l, l' with
         | [], [] => true
         | (pl, x) :: l, (pl', y) :: l' =>
             (jnq x =? jnq y) && (jnv x =? jnv y) && (jnvE x =? jnvE y) && jointEqb x y && se3eqb pl pl' && go l l'
         | _, _ => false
         end) l l'
  | _, _ => false
  end.
(* joint-generic.hpp 337-345 and joint-model-base.hpp 274-286 (hasSameIndexes) *)
Definition jointMEqb (a b : JointM) : bool :=
  (jm_id a =? jm_id b) && (jm_idx_q a =? jm_idx_q b) && (jm_idx_v a =? jm_idx_v b) && (jm_idx_vE a =? jm_idx_vE b) &&
  jointEqb (jm_type a) (jm_type b).
(* frame.hpp 200-206 *)
Definition frameEqb (a b : Frame) : bool :=
  String.eqb (fr_name a) (fr_name b) && (fr_parentJoint a =? fr_parentJoint b) && (fr_parentFrame a =? fr_parentFrame b) &&
  se3eqb (fr_placement a) (fr_placement b) && (fr_type a =? fr_type b) && inertiaEqb (fr_inertia a) (fr_inertia b).
(* model.hxx 305-403 operator==.  The loops over inertias and placements start at index 1; a difference of lengths,
   which would read out of range, is reported as a difference. *)
Definition modelEqb (m m' : Model) : bool :=
  (m_nq m =? m_nq m') && (m_nv m =? m_nv m') && (m_nvE m =? m_nvE m') && (m_njoints m =? m_njoints m') &&
  (m_nbodies m =? m_nbodies m') && (m_nframes m =? m_nframes m') &&
  leqb Nat.eqb (m_parents m) (m_parents m') && leqb (leqb Nat.eqb) (m_children m) (m_children m') &&
  leqb String.eqb (m_names m) (m_names m') && leqb (leqb Nat.eqb) (m_subtrees m) (m_subtrees m') &&
  leqb Nat.eqb (m_mimicking m) (m_mimicking m') && leqb Nat.eqb (m_mimicked m) (m_mimicked m') &&
  v6eqb (m_gravity m) (m_gravity m') && String.eqb (m_name m) (m_name m') &&
  leqb Nat.eqb (m_idx_qs m) (m_idx_qs m') && leqb Nat.eqb (m_nqs m) (m_nqs m') &&
  leqb Nat.eqb (m_idx_vs m) (m_idx_vs m') && leqb Nat.eqb (m_nvs m) (m_nvs m') &&
  leqb Nat.eqb (m_idx_vEs m) (m_idx_vEs m') && leqb Nat.eqb (m_nvEs m) (m_nvEs m') &&
  leqb (leqb reqb) (map snd (m_refs m)) (map snd (m_refs m')) &&
  leqb reqb (m_armature m) (m_armature m') && leqb reqb (m_friction m) (m_friction m') &&
  leqb reqb (m_damping m) (m_damping m') && leqb reqb (m_rotorInertia m) (m_rotorInertia m') &&
  leqb reqb (m_rotorGearRatio m) (m_rotorGearRatio m') && leqb reqb (m_effort m) (m_effort m') &&
  leqb reqb (m_velocity m) (m_velocity m') && leqb reqb (m_lower m) (m_lower m') && leqb reqb (m_upper m) (m_upper m') &&
  leqb inertiaEqb (tl (m_inertias m)) (tl (m_inertias m')) && leqb se3eqb (tl (m_placements m)) (tl (m_placements m')) &&
  leqb jointMEqb (m_joints m) (m_joints m') && leqb frameEqb (m_frames m) (m_frames m').

(* ---- proofs ---- *)
Lemma reqb_iff x y : reqb x y = true <-> x = y.
Proof. unfold reqb. destruct (Req_EM_T x y); intuition discriminate. Qed.
Lemma leqb_iff {A} (e : A -> A -> bool) : (forall x y, e x y = true <-> x = y) -> forall a b, leqb e a b = true <-> a = b.
Proof.
  intros H. induction a as [|x a IH]; intros [|y b]; cbn; try (split; congruence).
  rewrite andb_true_iff, H, IH. split; [intros [-> ->]; reflexivity | intros E; inversion E; auto].
Qed.
Ltac recb := rewrite ?andb_true_iff, ?reqb_iff; split;
  [intros E; decompose [and] E; clear E; subst; reflexivity | intros E; inversion E; repeat split; reflexivity].
Lemma v3eqb_iff a b : v3eqb a b = true <-> a = b.
Proof. destruct a, b; unfold v3eqb; cbn. recb. Qed.
Lemma m3eqb_iff a b : m3eqb a b = true <-> a = b.
Proof. destruct a, b; unfold m3eqb; cbn. recb. Qed.
Lemma v6eqb_iff a b : v6eqb a b = true <-> a = b.
Proof. destruct a, b; unfold v6eqb; cbn. rewrite !andb_true_iff, !v3eqb_iff. split; [intros [-> ->]; auto | intros E; inversion E; auto]. Qed.
Lemma se3eqb_iff a b : se3eqb a b = true <-> a = b.
Proof. destruct a, b; unfold se3eqb; cbn. rewrite !andb_true_iff, v3eqb_iff, m3eqb_iff. split; [intros [-> ->]; auto | intros E; inversion E; auto]. Qed.
Lemma sym3eqb_iff a b : sym3eqb a b = true <-> a = b.
Proof. destruct a, b; unfold sym3eqb; cbn. recb. Qed.
Lemma inertiaEqb_iff a b : inertiaEqb a b = true <-> a = b.
Proof.
  destruct a, b; unfold inertiaEqb; cbn. rewrite !andb_true_iff, reqb_iff, v3eqb_iff, sym3eqb_iff.
  split; [intros [[-> ->] ->]; auto | intros E; inversion E; auto].
Qed.
Lemma frameEqb_iff a b : frameEqb a b = true <-> a = b.
Proof.
  destruct a, b; unfold frameEqb; cbn. rewrite !andb_true_iff, !Nat.eqb_eq, String.eqb_eq, se3eqb_iff, inertiaEqb_iff.
  split; [intros E; decompose [and] E; clear E; subst; reflexivity | intros E; inversion E; repeat split; reflexivity].
Qed.

(* joints *)
Section JointInd.
Variable P : Joint -> Prop.
Hypothesis Hs : forall j, P (JSimple j).
Hypothesis Hm : forall j s o, P (JMimic j s o).
Hypothesis Hc : forall l, (forall pl j, In (pl, j) l -> P j) -> P (JComposite l).
Fixpoint jointInd (j : Joint) : P j :=
  match j with
  | JSimple j => Hs j
  | JMimic j s o => Hm j s o
  | JComposite l => Hc l
      ((fix go (l : list (SE3 * Joint)) : forall pl j, In (pl, j) l -> P j :=
        match l as l return forall pl j, In (pl, j) l -> P j with
        | [] => fun pl j H => match H with end
        | x :: r => fun pl j H =>
            match H with
            | or_introl E => match E in _ = y return P (snd y) with eq_refl => jointInd (snd x) end
            | or_intror H => go r pl j H
            end
        end) l)
  end.
End JointInd.

Fixpoint goEq (l l' : list (SE3 * Joint)) : bool :=
  match l, l' with
  | [], [] => true
  | (pl, x) :: l, (pl', y) :: l' =>
      (jnq x =? jnq y) && (jnv x =? jnv y) && (jnvE x =? jnvE y) && jointEqb x y && se3eqb pl pl' && goEq l l'
  | _, _ => false
  end.
Lemma jointEqb_composite l l' : jointEqb (JComposite l) (JComposite l') = goEq l l'.
Proof. revert l'; induction l as [|[pl x] l IH]; intros [|[pl' y] l']; reflexivity. Qed.

Lemma v3eqb_refl a : v3eqb a a = true. Proof. apply v3eqb_iff; reflexivity. Qed.
Lemma reqb_refl a : reqb a a = true. Proof. apply reqb_iff; reflexivity. Qed.
Lemma se3eqb_refl a : se3eqb a a = true. Proof. apply se3eqb_iff; reflexivity. Qed.
Lemma joint1Eqb_refl j : joint1Eqb j j = true.
Proof. destruct j; cbn; rewrite ?Nat.eqb_refl, ?v3eqb_refl, ?reqb_refl; reflexivity. Qed.
Lemma jointEqb_refl j : jointEqb j j = true.
Proof.
  induction j as [j|j s o|l IH] using jointInd; [apply joint1Eqb_refl | reflexivity |].
  rewrite jointEqb_composite. induction l as [|[pl x] l IHl]; [reflexivity|].
  cbn. rewrite !Nat.eqb_refl, se3eqb_refl, (IH pl x) by (left; reflexivity). cbn. apply IHl. intros. eapply IH. right; eassumption.
Qed.

Lemma reqb_sym x y : reqb x y = reqb y x.
Proof. unfold reqb. destruct (Req_EM_T x y), (Req_EM_T y x); congruence. Qed.
Lemma iff_sym_b (A : Type) (e : A -> A -> bool) : (forall x y, e x y = true <-> x = y) -> forall x y, e x y = e y x.
Proof.
  intros H x y. destruct (e x y) eqn:E1, (e y x) eqn:E2; try reflexivity.
  - pose proof (proj1 (H _ _) E1). subst. congruence.
  - pose proof (proj1 (H _ _) E2). subst. congruence.
Qed.
Lemma joint1Eqb_sym a b : joint1Eqb a b = joint1Eqb b a.
Proof.
  destruct a, b; cbn; try reflexivity; try apply Nat.eqb_sym; try apply (iff_sym_b _ _ v3eqb_iff).
  - f_equal; [apply (iff_sym_b _ _ v3eqb_iff) | apply reqb_sym].
  - f_equal; apply (iff_sym_b _ _ v3eqb_iff).
Qed.
Lemma jointEqb_sym a : forall b, jointEqb a b = jointEqb b a.
Proof.
  induction a as [j|j s o|l IH] using jointInd; intros [j'|j' s' o'|l']; try reflexivity; [apply joint1Eqb_sym|].
  rewrite !jointEqb_composite. revert l'. induction l as [|[pl x] l IHl]; intros [|[pl' y] l']; try reflexivity.
  cbn. rewrite (IH pl x) by (left; reflexivity). rewrite IHl by (intros; eapply IH; right; eassumption).
  rewrite (Nat.eqb_sym (jnq x)), (Nat.eqb_sym (jnv x)), (Nat.eqb_sym (jnvE x)), (iff_sym_b _ _ se3eqb_iff pl). reflexivity.
Qed.

Lemma joint1Eqb_sound a b : comparable1 a -> joint1Eqb a b = true -> a = b.
Proof.
  destruct a, b; cbn; intros C; try contradiction; try discriminate; rewrite ?andb_true_iff, ?Nat.eqb_eq, ?v3eqb_iff, ?reqb_iff;
    intros; try congruence; try (f_equal; tauto).
Qed.
Lemma jointEqb_sound a : comparable a -> forall b, jointEqb a b = true -> a = b.
Proof.
  induction a as [j|j s o|l IH] using jointInd; intros C [j'|j' s' o'|l'] E; try discriminate; try contradiction.
  - f_equal. apply joint1Eqb_sound; assumption.
  - rewrite jointEqb_composite in E. f_equal. revert l' C E. induction l as [|[pl x] l IHl]; intros [|[pl' y] l'] C E; try reflexivity; try discriminate.
    cbn in C, E. destruct C as [C1 C2]. rewrite !andb_true_iff in E. destruct E as [[[[[_ _] _] E1] E2] E3].
    apply se3eqb_iff in E2. subst pl'. rewrite (IH pl x (or_introl eq_refl) C1 y E1).
    rewrite (IHl (fun pl j H => IH pl j (or_intror H)) l' C2 E3). reflexivity.
Qed.
Lemma jointMEqb_sym a b : jointMEqb a b = jointMEqb b a.
Proof.
  unfold jointMEqb. rewrite (Nat.eqb_sym (jm_id a)), (Nat.eqb_sym (jm_idx_q a)), (Nat.eqb_sym (jm_idx_v a)), (Nat.eqb_sym (jm_idx_vE a)), jointEqb_sym. reflexivity.
Qed.
Lemma leqb_sym {A} (e : A -> A -> bool) : (forall x y, e x y = e y x) -> forall a b, leqb e a b = leqb e b a.
Proof. intros H. induction a as [|x a IH]; intros [|y b]; cbn; try reflexivity. rewrite H, IH. reflexivity. Qed.
Lemma leqb_refl {A} (e : A -> A -> bool) : (forall x, e x x = true) -> forall a, leqb e a a = true.
Proof. intros H. induction a as [|x a IH]; cbn; [reflexivity|]. rewrite H, IH. reflexivity. Qed.

Definition leqb_nat := leqb_iff Nat.eqb Nat.eqb_eq.
Definition leqb_natl := leqb_iff (leqb Nat.eqb) leqb_nat.
Definition leqb_str := leqb_iff String.eqb String.eqb_eq.
Definition leqb_R := leqb_iff reqb reqb_iff.
Definition leqb_RR := leqb_iff (leqb reqb) leqb_R.
Definition leqb_Y := leqb_iff inertiaEqb inertiaEqb_iff.
Definition leqb_M := leqb_iff se3eqb se3eqb_iff.
Definition leqb_F := leqb_iff frameEqb frameEqb_iff.

Theorem modelEqb_refl m : modelEqb m m = true.
Proof.
  unfold modelEqb. rewrite !andb_true_iff, !Nat.eqb_eq, !leqb_nat, !leqb_natl, !leqb_str, !leqb_RR, !leqb_R, leqb_Y, leqb_M, leqb_F, String.eqb_eq, v6eqb_iff.
  repeat split. apply leqb_refl. intros x. unfold jointMEqb. rewrite !Nat.eqb_refl, jointEqb_refl. reflexivity.
Qed.
Theorem modelEqb_sym m m' : modelEqb m m' = modelEqb m' m.
Proof.
  unfold modelEqb.
  rewrite (leqb_sym jointMEqb jointMEqb_sym (m_joints m)).
  rewrite (iff_sym_b _ _ leqb_Y (tl (m_inertias m))), (iff_sym_b _ _ leqb_M (tl (m_placements m))), (iff_sym_b _ _ leqb_F (m_frames m)),
    (iff_sym_b _ _ v6eqb_iff (m_gravity m)), (iff_sym_b _ _ leqb_RR (map snd (m_refs m))).
  rewrite !(iff_sym_b _ _ leqb_natl (m_children m)), !(iff_sym_b _ _ leqb_natl (m_subtrees m)).
  rewrite (Nat.eqb_sym (m_nq m)), (Nat.eqb_sym (m_nv m)), (Nat.eqb_sym (m_nvE m)), (Nat.eqb_sym (m_njoints m)), (Nat.eqb_sym (m_nbodies m)), (Nat.eqb_sym (m_nframes m)).
  rewrite (iff_sym_b _ _ leqb_nat (m_parents m)), (iff_sym_b _ _ leqb_str (m_names m)), (iff_sym_b _ _ leqb_nat (m_mimicking m)), (iff_sym_b _ _ leqb_nat (m_mimicked m)),
    (iff_sym_b _ _ leqb_nat (m_idx_qs m)), (iff_sym_b _ _ leqb_nat (m_nqs m)), (iff_sym_b _ _ leqb_nat (m_idx_vs m)), (iff_sym_b _ _ leqb_nat (m_nvs m)),
    (iff_sym_b _ _ leqb_nat (m_idx_vEs m)), (iff_sym_b _ _ leqb_nat (m_nvEs m)), (String.eqb_sym (m_name m)).
  rewrite (iff_sym_b _ _ leqb_R (m_armature m)), (iff_sym_b _ _ leqb_R (m_friction m)), (iff_sym_b _ _ leqb_R (m_damping m)), (iff_sym_b _ _ leqb_R (m_rotorInertia m)),
   (iff_sym_b _ _ leqb_R (m_rotorGearRatio m)), (iff_sym_b _ _ leqb_R (m_effort m)), (iff_sym_b _ _ leqb_R (m_velocity m)), (iff_sym_b _ _ leqb_R (m_lower m)), (iff_sym_b _ _ leqb_R (m_upper m)).
  reflexivity.
Qed.

Lemma leqb_nth {A} (e : A -> A -> bool) d a b : leqb e a b = true -> forall i, i < length a -> e (nth i a d) (nth i b d) = true.
Proof.
  revert b; induction a as [|x a IH]; intros [|y b]; cbn; try discriminate; intros E i Hi; [lia|].
  apply andb_true_iff in E. destruct E. destruct i; [assumption | apply IH; [assumption | lia]].
Qed.
Lemma nth_tl {A} (l : list A) i d : nth i (tl l) d = nth (S i) l d.
Proof. destruct l; [destruct i; reflexivity | reflexivity]. Qed.

(* equal parent arrays give equal paths *)
Lemma path_same m m' : m_njoints m = m_njoints m' -> m_parents m = m_parents m' -> forall j l, path m j l -> path m' j l.
Proof.
  intros En Ep. induction 1 as [|j l Hj H IH]; [constructor|]. constructor; [lia|].
  replace (parent m' j) with (parent m j) by (unfold parent; rewrite Ep; reflexivity). exact IH.
Qed.

Theorem modelEqb_sound m m' : wellFormed m -> wellFormed m' -> treeInv m -> treeInv m' ->
  (forall i, 0 < i < m_njoints m -> comparable (jm_type (joint m i))) ->
  modelEqb m m' = true ->
  m_njoints m = m_njoints m' /\ m_nq m = m_nq m' /\ m_nv m = m_nv m' /\ m_parents m = m_parents m' /\ m_names m = m_names m' /\
  (forall i, 0 < i < m_njoints m -> jm_type (joint m i) = jm_type (joint m' i) /\ inertiaOf m i = inertiaOf m' i /\
     placementOf m i = placementOf m' i /\ idx_q m i = idx_q m' i /\ idx_v m i = idx_v m' i) /\
  (forall i, i < m_njoints m -> support m i = support m' i /\ subtree m i = subtree m' i /\ childrenOf m i = childrenOf m' i) /\
  m_gravity m = m_gravity m' /\ m_armature m = m_armature m' /\ m_rotorInertia m = m_rotorInertia m' /\
  m_rotorGearRatio m = m_rotorGearRatio m' /\ m_friction m = m_friction m' /\ m_damping m = m_damping m' /\
  m_effort m = m_effort m' /\ m_velocity m = m_velocity m' /\ m_lower m = m_lower m' /\ m_upper m = m_upper m' /\
  m_frames m = m_frames m' /\ map snd (m_refs m) = map snd (m_refs m').
Proof.
  intros W W' T T' C H. unfold modelEqb in H.
  rewrite !andb_true_iff, !Nat.eqb_eq, !leqb_nat, !leqb_natl, !leqb_str, !leqb_RR, !leqb_R, leqb_Y, leqb_M, leqb_F, String.eqb_eq, v6eqb_iff in H.
  destruct H as [H HF]. destruct H as [H HJ]. decompose [and] H. clear H.
  destruct (wf_lengths _ W) as (L1&L2&L3&L4&L5&L6&L7&L8&L9&L10&L11&L12&L13&L14&L15).
  repeat match goal with |- _ /\ _ => split end; try assumption.
  - intros i Hi.
    assert (E : jointMEqb (joint m i) (joint m' i) = true) by (apply leqb_nth; [exact HJ | lia]).
    unfold jointMEqb in E. rewrite !andb_true_iff in E. destruct E as [_ E].
    split; [apply jointEqb_sound; [apply C; exact Hi | exact E]|].
    unfold inertiaOf, placementOf, idx_q, idx_v. destruct i as [|i]; [lia|]. rewrite <- !nth_tl. repeat split; congruence.
  - intros i Hi. split.
    + apply (path_fun m' i).
      * apply (path_same m m'); [assumption | assumption | apply (ti_path _ T); exact Hi].
      * apply (ti_path _ T'). lia.
    + unfold subtree, childrenOf. split; congruence.
Qed.

(* ---- what the comparison misses ---- *)
Definition setJoints (m : Model) (l : list JointM) : Model :=
  mkModel (m_nq m) (m_nv m) (m_nvE m) (m_njoints m) (m_nbodies m) (m_nframes m)
    (m_inertias m) (m_placements m) l
    (m_idx_qs m) (m_nqs m) (m_idx_vs m) (m_nvs m) (m_idx_vEs m) (m_nvEs m)
    (m_parents m) (m_children m) (m_mimicking m) (m_mimicked m) (m_names m) (m_refs m)
    (m_armature m) (m_rotorInertia m) (m_rotorGearRatio m) (m_friction m) (m_damping m)
    (m_effort m) (m_velocity m) (m_lower m) (m_upper m)
    (m_frames m) (m_supports m) (m_mimic_supports m) (m_subtrees m) (m_gravity m) (m_name m).
(* assignment of the public member referenceConfigurations *)
Definition setRefs (m : Model) (r : list (string * list R)) : Model :=
  mkModel (m_nq m) (m_nv m) (m_nvE m) (m_njoints m) (m_nbodies m) (m_nframes m)
    (m_inertias m) (m_placements m) (m_joints m)
    (m_idx_qs m) (m_nqs m) (m_idx_vs m) (m_nvs m) (m_idx_vEs m) (m_nvEs m)
    (m_parents m) (m_children m) (m_mimicking m) (m_mimicked m) (m_names m) r
    (m_armature m) (m_rotorInertia m) (m_rotorGearRatio m) (m_friction m) (m_damping m)
    (m_effort m) (m_velocity m) (m_lower m) (m_upper m)
    (m_frames m) (m_supports m) (m_mimic_supports m) (m_subtrees m) (m_gravity m) (m_name m).

Lemma modelEqb_joints m l l' : leqb jointMEqb l l' = true -> modelEqb (setJoints m l) (setJoints m l') = true.
Proof.
  intros H. pose proof (modelEqb_refl m) as E. unfold modelEqb in *. cbn [setJoints m_nq m_nv m_nvE m_njoints m_nbodies m_nframes m_inertias m_placements m_joints
    m_idx_qs m_nqs m_idx_vs m_nvs m_idx_vEs m_nvEs m_parents m_children m_mimicking m_mimicked m_names m_refs m_armature m_rotorInertia m_rotorGearRatio m_friction m_damping
    m_effort m_velocity m_lower m_upper m_frames m_subtrees m_gravity m_name]. rewrite !andb_true_iff in *. tauto.
Qed.
Lemma modelEqb_refs m r r' : map snd r = map snd r' -> modelEqb (setRefs m r) (setRefs m r') = true.
Proof.
  intros H. pose proof (modelEqb_refl m) as E. unfold modelEqb in *. cbn [setRefs m_nq m_nv m_nvE m_njoints m_nbodies m_nframes m_inertias m_placements m_joints
    m_idx_qs m_nqs m_idx_vs m_nvs m_idx_vEs m_nvEs m_parents m_children m_mimicking m_mimicked m_names m_refs m_armature m_rotorInertia m_rotorGearRatio m_friction m_damping
    m_effort m_velocity m_lower m_upper m_frames m_subtrees m_gravity m_name]. rewrite !andb_true_iff in *.
  apply leqb_RR in H. tauto.
Qed.

(* two models built by the same call, but with different pitches *)
Definition pitchModel (eps p : R) : Model :=
  match addJoint emptyModel 0 (freshJoint (JSimple (JHelical 2 p))) se3_Identity "h"
          (mkLimits [1%R] [1%R] [(-1)%R] [1%R] [0%R] [0%R]) with Ok m _ => m | _ => emptyModel end.
Lemma pitchModel_built eps p : Built eps (pitchModel eps p).
Proof.
  eexists. eapply (H_step eps emptyModel _ [] None); [constructor|].
  apply (S_joint eps emptyModel _ 0 (JSimple (JHelical 2 p)) se3_Identity "h"%string (mkLimits [1%R] [1%R] [(-1)%R] [1%R] [0%R] [0%R]) 1); [exact I | reflexivity].
Qed.
Theorem pitch_ignored eps p p' : p <> p' ->
  Built eps (pitchModel eps p) /\ Built eps (pitchModel eps p') /\
  modelEqb (pitchModel eps p) (pitchModel eps p') = true /\
  jm_type (joint (pitchModel eps p) 1) <> jm_type (joint (pitchModel eps p') 1).
Proof.
  intros Hp. split; [apply pitchModel_built|]. split; [apply pitchModel_built|]. split.
  - assert (E : pitchModel eps p' = setJoints (pitchModel eps p) (m_joints (pitchModel eps p'))) by reflexivity.
    rewrite E. replace (pitchModel eps p) with (setJoints (pitchModel eps p) (m_joints (pitchModel eps p))) at 1 by reflexivity.
    apply modelEqb_joints. reflexivity.
  - cbn. congruence.
Qed.
(* mimic joints: scaling and offset *)
Definition mimicModel (eps s o : R) : Model :=
  let m := match addJoint emptyModel 0 (freshJoint (JSimple (JRevolute 2))) se3_Identity "a"
          (mkLimits [1%R] [1%R] [(-1)%R] [1%R] [0%R] [0%R]) with Ok m _ => m | _ => emptyModel end in
  match addJoint m 1 (mkMimic (JRevolute 2) (joint m 1) s o) se3_Identity "b" (mkLimits [] [] [] [] [] []) with Ok m' _ => m' | _ => m end.
Lemma mimicModel_built eps s o : Built eps (mimicModel eps s o).
Proof.
  set (m := match addJoint emptyModel 0 (freshJoint (JSimple (JRevolute 2))) se3_Identity "a"
          (mkLimits [1%R] [1%R] [(-1)%R] [1%R] [0%R] [0%R]) with Ok m _ => m | _ => emptyModel end).
  assert (H1 : History eps m []).
  { eapply (H_step eps emptyModel _ [] None); [constructor|].
    apply (S_joint eps emptyModel _ 0 (JSimple (JRevolute 2)) se3_Identity "a"%string (mkLimits [1%R] [1%R] [(-1)%R] [1%R] [0%R] [0%R]) 1); [exact I | reflexivity]. }
  exists []. eapply (H_step eps m _ [] None); [exact H1|].
  apply (S_mimic eps m _ 1 (JRevolute 2) 1 s o se3_Identity "b"%string (mkLimits [] [] [] [] [] []) 2); try exact I; try reflexivity; cbn; lia.
Qed.
Theorem mimic_ignored eps s o s' o' : (s, o) <> (s', o') ->
  Built eps (mimicModel eps s o) /\ Built eps (mimicModel eps s' o') /\
  modelEqb (mimicModel eps s o) (mimicModel eps s' o') = true /\
  jm_type (joint (mimicModel eps s o) 2) <> jm_type (joint (mimicModel eps s' o') 2).
Proof.
  intros Hp. split; [apply mimicModel_built|]. split; [apply mimicModel_built|]. split.
  - assert (E : mimicModel eps s' o' = setJoints (mimicModel eps s o) (m_joints (mimicModel eps s' o'))) by reflexivity.
    rewrite E. replace (mimicModel eps s o) with (setJoints (mimicModel eps s o) (m_joints (mimicModel eps s o))) at 1 by reflexivity.
    apply modelEqb_joints. reflexivity.
  - cbn. congruence.
Qed.
Theorem refs_names_ignored m a b v : a <> b ->
  modelEqb (setRefs m [(a, v)]) (setRefs m [(b, v)]) = true /\ m_refs (setRefs m [(a, v)]) <> m_refs (setRefs m [(b, v)]).
Proof. intros H. split; [apply modelEqb_refs; reflexivity | cbn; congruence]. Qed.
