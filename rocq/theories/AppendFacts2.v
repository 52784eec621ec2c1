(* Copying one joint extends the layout; what a layout says about the joints of the result. *)
Require Import Reals String List Arith Bool Lia.
From Verif Require Import Vec3 Spatial Inertia InertiaFacts Joints Spec_Joints Model Spec_Model ModelFacts ModelFacts2 ModelTree ModelFacts3 Spec_Kin Mimic MimicFacts Reduce Spec_Append AppendFacts.
Import ListNotations.
Local Open Scope nat_scope.

Lemma goodArg_ext m jm jm' : jm = jm' -> goodArg m jm' -> goodArg m jm. Proof. now intros ->. Qed.
Lemma tl_snoc {A} (l : list A) x : l <> [] -> tl (l ++ [x]) = tl l ++ [x].
Proof. destruct l; [contradiction | reflexivity]. Qed.
Lemma len_nonempty {A} (l : list A) n : length l = S n -> l <> []. Proof. destruct l; discriminate. Qed.
Lemma nth_S_tl {A} n (l : list A) d : nth (S n) l d = nth n (tl l) d.
Proof. destruct l; [destruct n|]; reflexivity. Qed.
Lemma flat_map_snoc {A B} (f : A -> list B) l x : flat_map f (l ++ [x]) = flat_map f l ++ f x.
Proof. rewrite flat_map_app. cbn. now rewrite app_nil_r. Qed.

Lemma wf_setRotor m ri rg : wellFormed m -> length ri = m_nv m -> length rg = m_nv m -> wellFormed (setRotor m ri rg).
Proof.
  intros W H1 H2. destruct W as [A1 A2 A3 A4 A5 A6 A7 A8 A9 A10 A11 A12]. constructor; try assumption.
  cbn. destruct A11 as (B1&B2&B3&B4&B5&B6&B7&B8&B9). repeat split; assumption.
Qed.
Lemma treeInv_setInertias m l n : treeInv m -> treeInv (setInertias m l n).
Proof. intros T. apply (treeInv_same m); try reflexivity. exact T. Qed.
Lemma treeInv_setRotor m ri rg : treeInv m -> treeInv (setRotor m ri rg).
Proof. intros T. apply (treeInv_same m); try reflexivity. exact T. Qed.

(* a mimic joint adapted to r *)
Definition linked (m r : Model) (i k : nat) (jm' : JointM) : Prop :=
  if isMimic (joint m i)
  then jm' = setMimicIndexes (joint m i) k (idx_q r k) (idx_v r k) /\ 0 < k < m_njoints r /\ isMimic (joint r k) = false /\
       forall j s o, jm_type (joint m i) = JMimic j s o -> nq1 j = nqOf r k /\ nv1 j = nvOf r k
  else jm' = joint m i.
Definition plainRefs (m : Model) : Prop := forall i, 0 < i < m_njoints m -> isMimic (joint m i) = false -> jm_ref (joint m i) = 0.

Section Copy.
Variables (eps : R) (m r : Model) (items : list Item) (i : nat) (p : nat) (pl : SE3) (k : nat) (jm' : JointM).
Hypotheses (W : wellFormed m) (PR : plainRefs m) (Hi : 0 < i < m_njoints m) (Y : Layout r items) (Hp : p < m_njoints r)
  (Hl : linked m r i k jm').
Let lim := mkLimits (segV m i (m_effort m)) (segV m i (m_velocity m)) (segQ m i (m_lower m)) (segQ m i (m_upper m))
                    (segV m i (m_friction m)) (segV m i (m_damping m)).

Lemma limits_linked : limitsOf m jm' = Some lim /\ limitsOf m (joint m i) = Some lim.
Proof.
  split; apply (limitsOf_ok m W i Hi); [|left; reflexivity]. unfold linked in Hl. destruct (isMimic (joint m i)) eqn:Em.
  - right. destruct Hl as [-> _]. split; reflexivity.
  - left. exact Hl.
Qed.
Lemma linked_type : jm_type jm' = jm_type (joint m i).
Proof. unfold linked in Hl. destruct (isMimic (joint m i)); [destruct Hl as [-> _] | rewrite Hl]; reflexivity. Qed.
Lemma linked_good : exists jg, goodArg r jg /\ jm_type jg = jm_type (joint m i) /\ (isMimic (joint m i) = true -> jm_ref jg = k) /\
  addJoint r p jm' (se3_mul pl (placementOf m i)) (nameOf m i) lim = addJoint r p jg (se3_mul pl (placementOf m i)) (nameOf m i) lim.
Proof.
  pose proof linked_type as Et. unfold linked in Hl. destruct (isMimic (joint m i)) eqn:Em.
  - destruct Hl as (-> & Hk & Hkm & Hd). unfold isMimic in Em. destruct (jm_type (joint m i)) as [|j s o|] eqn:Ej; try discriminate.
    pose proof (wf_mimic _ W i j s o Hi Ej) as (Mm & _).
    destruct (wf_joint _ (lay_wf _ _ Y) k Hk) as (I0 & I1 & I2 & _).
    exists (mkMimic j (joint r k) s o). split; [|split; [|split]].
    + right. exists j, k, s, o. destruct (Hd j s o eq_refl). repeat split; auto; lia.
    + reflexivity.
    + intros _. cbn. exact I0.
    + apply addJoint_type.
      * cbn. exact Ej.
      * unfold setIndexes, isMimic. cbn [mkMimic jm_type jm_ref]. rewrite I0. replace (k <? m_njoints r) with true by (symmetry; apply Nat.ltb_lt; lia). discriminate.
      * unfold setIndexes, isMimic. cbn [mkMimic setMimicIndexes jm_type jm_ref jm_idx_q jm_idx_v]. rewrite Ej, I0, I1, I2. reflexivity.
  - exists (freshJoint (jm_type (joint m i))). split; [|split; [|split]].
    + left. eexists. split; [reflexivity|]. unfold isMimic in Em. destruct (jm_type (joint m i)); cbn; auto. discriminate.
    + reflexivity.
    + discriminate.
    + subst jm'. apply addJoint_type; [reflexivity| |]; unfold setIndexes, isMimic in *; cbn [freshJoint jm_type jm_ref];
        destruct (jm_type (joint m i)) eqn:Ej; try discriminate; rewrite (PR i Hi) by (unfold isMimic; now rewrite Ej); reflexivity.
Qed.

Lemma copy_ok : exists r', copyToModel eps m r i (nameOf m i) (joint m i) jm' lim p pl = Ok r' (m_njoints r) /\
  Layout r' (items ++ [mkItem m i p (se3_mul pl (placementOf m i)) k]) /\
  m_frames r' = m_frames r /\ m_nframes r' = m_nframes r /\ m_gravity r' = m_gravity r /\ m_name r' = m_name r /\ m_refs r' = m_refs r /\
  m_inertias r' = m_inertias r ++ [inertia_plus eps inertia_Zero (inertiaOf m i)] /\
  m_names r' = m_names r ++ [nameOf m i] /\ nth 0 (m_placements r') se3_Identity = nth 0 (m_placements r) se3_Identity /\
  m_njoints r' = S (m_njoints r) /\
  (forall n, n < m_njoints r -> joint r' n = joint r n /\ idx_q r' n = idx_q r n /\ idx_v r' n = idx_v r n /\ nqOf r' n = nqOf r n /\ nvOf r' n = nvOf r n).
Proof.
  destruct linked_good as (jg & G & Et & Eref & Ea). pose proof (lay_wf _ _ Y) as Wr.
  destruct (wf_lengths _ W) as (L1&L2&L3&L4&L5&L6&L7&L8&L9&L10&L11&L12&L13&L14&L15).
  destruct (wf_lengths _ Wr) as (R1&R2&R3&R4&R5&R6&R7&R8&R9&R10&R11&R12&R13&R14&R15).
  destruct (wf_dofs _ W) as (D1&D2&D3&D4&D5&D6&D7&D8&D9).
  destruct (wf_dofs _ Wr) as (F1&F2&F3&F4&F5&F6&F7&F8&F9).
  assert (Hself : joint m i = joint m i \/ isMimic (joint m i) = true /\ jm_type (joint m i) = jm_type (joint m i)) by (left; reflexivity).
  unfold copyToModel. rewrite (nth_error_nth' (m_placements m) i se3_Identity) by lia. rewrite (nth_error_nth' (m_inertias m) i inertia_Zero) by lia.
  change (nth i (m_placements m) se3_Identity) with (placementOf m i). change (nth i (m_inertias m) inertia_Zero) with (inertiaOf m i).
  rewrite Ea.
  assert (AT : exists r1, addJoint r p jg (se3_mul pl (placementOf m i)) (nameOf m i) lim = Ok r1 (m_njoints r)).
  { apply addJoint_total; try assumption; rewrite Et; cbn [lim l_effort l_velocity l_lower l_upper l_friction l_damping];
      (eapply (selV_ok m W i Hi) || eapply (selQ_ok m W i Hi)); eassumption. }
  destruct AT as [r1 E1].
  rewrite E1.
  pose proof (wf_addJoint _ _ _ _ _ _ _ _ Wr G E1) as W1. pose proof (treeInv_addJoint _ _ _ _ _ _ _ _ Wr W1 (lay_tree _ _ Y) E1) as T1.
  pose proof (addJoint_effect _ _ _ _ _ _ _ _ Wr G E1) as (A1 & A2 & A3 & A4 & A5 & A6 & A7 & A8 & B1 & B2 & B3 & B4 & B5 & B6 & B7 & B8 & B9 & B10 & B11).
  destruct (addJoint_inv _ _ _ _ _ _ _ _ E1) as (jm2 & anc & sup & msup & Es & _ & _ & _ & _ & Er1).
  destruct (setIndexes_type _ _ _ _ _ _ Es) as (S1 & S2 & S3 & S4 & S5 & S6).
  assert (Q : m_placements r1 = m_placements r ++ [se3_mul pl (placementOf m i)] /\ m_joints r1 = m_joints r ++ [jm2] /\
     m_names r1 = m_names r ++ [nameOf m i] /\ m_parents r1 = m_parents r ++ [p] /\ m_inertias r1 = m_inertias r ++ [inertia_Zero] /\
     m_nframes r1 = m_nframes r /\ m_name r1 = m_name r /\ m_refs r1 = m_refs r /\ m_nv r1 = m_nv r + jnv (jm_type jg) /\
     m_nqs r1 = m_nqs r ++ [jnq (jm_type jg)] /\ m_nvs r1 = m_nvs r ++ [jnv (jm_type jg)]).
  { rewrite Er1. repeat split. }
  clear Er1. destruct Q as (Q1 & Q2 & Q3 & Q4 & Q5 & Q6 & Q7 & Q8 & Q9 & Q10 & Q11).
  destruct (appendBody_effect eps r1 (m_njoints r) (inertiaOf m i) se3_Identity W1 ltac:(lia)) as (r2 & E2 & _).
  rewrite E2. unfold appendBodyToJoint in E2. rewrite (proj2 (Nat.ltb_lt (m_njoints r) (length (m_inertias r1)))) in E2 by (rewrite Q5, app_length; cbn; lia).
  injection E2 as <-. rewrite Q2, nth_error_app2, R3, Nat.sub_diag by lia. cbn [nth_error].
  rewrite (proj1 (selV_ok m W i Hi _ _ D2 Hself)), (proj1 (selV_ok m W i Hi _ _ D3 Hself)).
  destruct (selV_ok m W i Hi _ _ D2 Hself) as [_ Z2]. destruct (selV_ok m W i Hi _ _ D3 Hself) as [_ Z3].
  cbn [setInertias m_rotorInertia m_rotorGearRatio]. rewrite B8, B9, Et.
  assert (Hw : forall (l x : list R) c, length l = m_nv r -> length x = jnv (jm_type (joint m i)) ->
     writeSeg (l ++ repeat c (jnv (jm_type (joint m i)))) (jm_idx_v jm2) x = Some (l ++ x)).
  { intros l x c Hll Hx. destruct (isMimic jg) eqn:Em.
    - pose proof (mimic_dims _ Em) as [_ Z]. rewrite Et in Z. rewrite Z in *. destruct x; [|discriminate]. cbn [repeat]. rewrite app_nil_r. apply writeSeg_nil.
    - destruct S6 as [_ S6]. rewrite S6. apply writeSeg_end; [exact Hll | rewrite repeat_length; now rewrite Hx]. }
  rewrite (Hw _ _ _ F2 Z2), (Hw _ _ _ F3 Z3).
  eexists. split; [reflexivity|].
  assert (NE : forall A (l : list A), length l = m_njoints r -> l <> []) by (intros A l Hll; apply (len_nonempty l (length items)); rewrite Hll; apply (lay_n _ _ Y)).
  repeat match goal with |- _ /\ _ => split end; try (cbn; assumption || reflexivity).
  - constructor.
    + apply wf_setRotor.
      * apply wf_setInertias; [exact W1|]. rewrite upd_length, Q5, app_length. cbn. lia.
      * cbn. rewrite app_length, Z2, Q9, Et. lia.
      * cbn. rewrite app_length, Z3, Q9, Et. lia.
    + apply treeInv_setRotor, treeInv_setInertias, T1.
    + intros it Hit. apply in_app_or in Hit. destruct Hit as [Hit|[<-|[]]]; [apply (lay_src _ _ Y), Hit | split; assumption].
    + cbn. rewrite A2, app_length. cbn. rewrite (lay_n _ _ Y). lia.
    + cbn. rewrite Q3, tl_snoc, map_app, (lay_names _ _ Y) by (apply NE; assumption). reflexivity.
    + cbn. rewrite Q2, tl_snoc, !map_app, (lay_types _ _ Y) by (apply NE; assumption). cbn. unfold itType. cbn. rewrite S1, Et. reflexivity.
    + intros n it Hn Hm. destruct (Nat.eq_dec n (length items)) as [->|Hne].
      * rewrite nth_error_app2, Nat.sub_diag in Hn by lia. injection Hn as <-. cbn in Hm |- *.
        unfold joint. cbn. rewrite Q2, <- (lay_n _ _ Y), nth_snoc, R3, Nat.eqb_refl, S4. now apply Eref.
      * assert (n < length items). { assert (n < length (items ++ [mkItem m i p (se3_mul pl (placementOf m i)) k])) by (apply nth_error_Some; congruence). rewrite app_length in *. cbn in *. lia. }
        rewrite nth_error_app1 in Hn by assumption. unfold joint. cbn. rewrite Q2, nth_snoc, R3, (lay_n _ _ Y).
        replace (S n =? S (length items)) with false by (symmetry; apply Nat.eqb_neq; lia). apply (lay_refs _ _ Y n it Hn Hm).
    + cbn. rewrite Q4, (lay_parents _ _ Y), map_app. reflexivity.
    + cbn. rewrite Q1, tl_snoc, map_app, (lay_pl _ _ Y) by (apply NE; assumption). reflexivity.
    + intros g Hg. rewrite flat_map_snoc. cbn [it_src it_ix].
      pose proof (lay_vel _ _ Y) as Hv. cbn in Hg. destruct Hg as [<-|[<-|[<-|[<-|[<-|[<-|[]]]]]]]; cbn;
        rewrite <- Hv by (cbn; tauto); try reflexivity; assumption.
    + intros g Hg. rewrite flat_map_snoc. cbn [it_src it_ix].
      pose proof (lay_pos _ _ Y) as Hv. cbn in Hg. destruct Hg as [<-|[<-|[]]]; cbn; rewrite <- Hv by (cbn; tauto); assumption.
    + cbn. rewrite B7, (lay_arm _ _ Y), <- repeat_app, Q9. reflexivity.
  - cbn. rewrite Q5. unfold upd. rewrite nth_error_app2, R1, Nat.sub_diag by lia. cbn [nth_error].
    rewrite inertia_pequ_plus, inertia_act_id. rewrite firstn_app, R1, Nat.sub_diag, firstn_all2 by lia. cbn [firstn]. rewrite app_nil_r.
    rewrite skipn_all2 by (rewrite app_length; cbn; lia). reflexivity.
  - cbn. rewrite Q1, app_nth1 by (pose proof (wf_n _ Wr); lia). reflexivity.
  - intros n Hn. destruct (A8 n ltac:(lia)) as (X1 & _ & _ & _ & _ & X2 & X3). repeat split; try assumption; unfold nqOf, nvOf; cbn; rewrite ?Q10, ?Q11, app_nth1 by lia; reflexivity.
Qed.
End Copy.
