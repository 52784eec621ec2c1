(* What a layout says about each joint of the result. *)
Require Import Reals String List Arith Bool Lia.
From Verif Require Import Vec3 Spatial Inertia InertiaFacts Joints Spec_Joints JointFacts Model Spec_Model ModelFacts ModelFacts2 ModelTree ModelFacts3 Spec_Kin Mimic MimicFacts MimicFacts2 Reduce Spec_Append AppendFacts AppendFacts2.
Import ListNotations.
Local Open Scope nat_scope.

(* mimic joints are linked to the copies of their mimicked joints *)
Definition Linked (items : list Item) : Prop :=
  forall n it, nth_error items n = Some it -> isMimic (joint (it_src it) (it_ix it)) = true ->
    exists n' it', it_ref it = S n' /\ nth_error items n' = Some it' /\ it_src it' = it_src it /\ it_ix it' = jm_ref (joint (it_src it) (it_ix it)).

Section Layout.
Variables (r : Model) (items : list Item).
Hypotheses (Y : Layout r items) (LK : Linked items).
Let W : wellFormed r := lay_wf _ _ Y.
Variables (n : nat) (it : Item).
Hypothesis Hn : nth_error items n = Some it.
Let m := it_src it.
Let i := it_ix it.

Lemma item_lt : n < length items. Proof. apply nth_error_Some. congruence. Qed.
Lemma item_k : 0 < S n < m_njoints r. Proof. rewrite (lay_n _ _ Y). pose proof item_lt. lia. Qed.
Lemma item_src : wellFormed m /\ 0 < i < m_njoints m. Proof. apply (lay_src _ _ Y). eapply nth_error_In; exact Hn. Qed.
Lemma map_item {A} (f : Item -> A) d : nth n (map f items) d = f it.
Proof. erewrite nth_error_nth; [reflexivity|]. rewrite nth_error_map, Hn. reflexivity. Qed.
Lemma item_name : nameOf r (S n) = nameOf m i.
Proof. unfold nameOf. rewrite nth_S_tl, (lay_names _ _ Y), map_item. reflexivity. Qed.
Lemma item_type : jm_type (joint r (S n)) = jm_type (joint m i).
Proof.
  unfold joint at 1. rewrite nth_S_tl. transitivity (nth n (map jm_type (tl (m_joints r))) (jm_type dJ)); [symmetry; apply map_nth|].
  rewrite (lay_types _ _ Y), map_item. reflexivity.
Qed.
Lemma item_mimic : isMimic (joint r (S n)) = isMimic (joint m i). Proof. unfold isMimic. now rewrite item_type. Qed.
Lemma item_parent : parent r (S n) = it_par it.
Proof. unfold parent. rewrite (lay_parents _ _ Y). cbn [nth]. apply map_item. Qed.
Lemma item_placement : placementOf r (S n) = it_pl it.
Proof. unfold placementOf. rewrite nth_S_tl, (lay_pl _ _ Y). apply map_item. Qed.
Lemma item_dims : nqOf r (S n) = nqOf m i /\ nvOf r (S n) = nvOf m i.
Proof.
  destruct (wf_joint _ W (S n) item_k) as (_ & _ & _ & _ & E1 & E2 & _). destruct item_src as [Wm Hi].
  destruct (wf_joint _ Wm i Hi) as (_ & _ & _ & _ & F1 & F2 & _). rewrite <- E1, <- E2, <- F1, <- F2, item_type. split; reflexivity.
Qed.
End Layout.

Section Segments.
Variables (r : Model) (items : list Item).
Hypotheses (Y : Layout r items).
Let W : wellFormed r := lay_wf _ _ Y.
Lemma layout_dims : m_nqs r = 0 :: map (fun it => nqOf (it_src it) (it_ix it)) items /\ m_nvs r = 0 :: map (fun it => nvOf (it_src it) (it_ix it)) items.
Proof.
  destruct (wf_lengths _ W) as (L1&L2&L3&L4&L5&L6&L7&_). destruct (wf_zero _ W) as (Z1 & Z2 & _).
  split; apply (nth_ext _ _ 0 0); cbn [length]; rewrite ?map_length; try (rewrite ?L5, ?L7; apply (lay_n _ _ Y)).
  - intros k Hk. rewrite L5 in Hk. destruct k as [|k]; [exact Z1|]. rewrite (lay_n _ _ Y) in Hk.
    destruct (nth_error items k) as [it|] eqn:E; [|apply nth_error_None in E; lia].
    cbn [nth]. rewrite (map_item items k it E). apply (item_dims r items Y k it E).
  - intros k Hk. rewrite L7 in Hk. destruct k as [|k]; [exact Z2|]. rewrite (lay_n _ _ Y) in Hk.
    destruct (nth_error items k) as [it|] eqn:E; [|apply nth_error_None in E; lia].
    cbn [nth]. rewrite (map_item items k it E). apply (item_dims r items Y k it E).
Qed.
Lemma seg_len (f : Model -> list R) it : In it items -> (In f velFields -> length (segV (it_src it) (it_ix it) (f (it_src it))) = nvOf (it_src it) (it_ix it)) /\
   (In f posFields -> length (segQ (it_src it) (it_ix it) (f (it_src it))) = nqOf (it_src it) (it_ix it)).
Proof.
  intros Hin. destruct (lay_src _ _ Y it Hin) as [Wm Hi]. destruct (wf_dofs _ Wm) as (D1&D2&D3&D4&D5&D6&D7&D8&D9).
  destruct (wf_joint _ Wm _ Hi) as (_ & _ & _ & _ & E1 & E2 & _). rewrite <- E1, <- E2.
  assert (Hs : joint (it_src it) (it_ix it) = joint (it_src it) (it_ix it) \/ isMimic (joint (it_src it) (it_ix it)) = true /\ jm_type (joint (it_src it) (it_ix it)) = jm_type (joint (it_src it) (it_ix it))) by (left; reflexivity).
  split; intros Hf; cbn in Hf.
  - destruct Hf as [<-|[<-|[<-|[<-|[<-|[<-|[]]]]]]]; eapply (selV_ok _ Wm _ Hi); eassumption.
  - destruct Hf as [<-|[<-|[]]]; eapply (selQ_ok _ Wm _ Hi); eassumption.
Qed.
Lemma item_seg n it : nth_error items n = Some it ->
  (forall g, In g velFields -> segV r (S n) (g r) = segV (it_src it) (it_ix it) (g (it_src it))) /\
  (forall g, In g posFields -> segQ r (S n) (g r) = segQ (it_src it) (it_ix it) (g (it_src it))).
Proof.
  intros Hn. pose proof (item_lt items n it Hn) as Hlt. destruct (item_dims r items Y n it Hn) as [Dq Dv].
  assert (Enth : nth n items it = it) by now apply nth_error_nth.
  destruct layout_dims as [Lq Lv]. pose proof (item_src r items Y n it Hn) as [Wm Hi]. pose proof (item_k r items Y n it Hn) as Hk.
  assert (Hz : isMimic (joint (it_src it) (it_ix it)) = true -> nqOf (it_src it) (it_ix it) = 0 /\ nvOf (it_src it) (it_ix it) = 0) by apply (src_inrange _ Wm _ Hi).
  split; intros g Hg; [unfold segV | unfold segQ]; rewrite ?Dq, ?Dv; destruct (isMimic (joint (it_src it) (it_ix it))) eqn:Em.
  - destruct (Hz eq_refl) as [_ ->]. reflexivity.
  - destruct (wf_range _ W (S n) Hk) as [_ ->]; [rewrite (item_mimic r items Y n it Hn); exact Em|].
    rewrite Lv. cbn [firstn]. change (sum (0 :: ?l)) with (sum l). rewrite (lay_vel _ _ Y g Hg).
    destruct (seg_flat_map (fun it => segV (it_src it) (it_ix it) (g (it_src it))) (fun it => nvOf (it_src it) (it_ix it)) items it) as [_ S2].
    { intros x Hx. apply (seg_len g x Hx), Hg. }
    specialize (S2 n Hlt). rewrite Enth in S2. exact S2.
  - destruct (Hz eq_refl) as [-> _]. reflexivity.
  - destruct (wf_range _ W (S n) Hk) as [-> _]; [rewrite (item_mimic r items Y n it Hn); exact Em|].
    rewrite Lq. cbn [firstn]. change (sum (0 :: ?l)) with (sum l). rewrite (lay_pos _ _ Y g Hg).
    destruct (seg_flat_map (fun it => segQ (it_src it) (it_ix it) (g (it_src it))) (fun it => nqOf (it_src it) (it_ix it)) items it) as [_ S2].
    { intros x Hx. apply (seg_len g x Hx), Hg. }
    specialize (S2 n Hlt). rewrite Enth in S2. exact S2.
Qed.

Hypothesis LK : Linked items.
Lemma item_copied n it : nth_error items n = Some it -> copied (it_src it) (it_ix it) r (S n).
Proof.
  intros Hn. destruct (item_seg n it Hn) as [Sv Sq]. constructor.
  - split; [apply (item_src r items Y n it Hn) | apply (item_k r items Y n it Hn)].
  - apply (item_name r items Y n it Hn).
  - apply (item_type r items Y n it Hn).
  - intros Hm. destruct (LK n it Hn Hm) as (n' & it' & E1 & E2 & E3 & E4). rewrite (lay_refs _ _ Y n it Hn Hm), E1, (item_name r items Y n' it' E2), E3, E4. reflexivity.
  - split; apply Sq; cbn; tauto.
  - split; apply Sv; cbn; tauto.
  - split; apply Sv; cbn; tauto.
  - split; apply Sv; cbn; tauto.
Qed.

(* a copied joint reads the coordinates of the joint it copies *)
Lemma item_jointAt n it q qr w wr : nth_error items n = Some it -> validJoint (jm_type (joint (it_src it) (it_ix it))) ->
  sameCoordinates (it_src it) r q qr -> sameVelocities (it_src it) r w wr -> jointAt r qr wr (S n) = jointAt (it_src it) q w (it_ix it).
Proof.
  intros Hn Vj Hq Hw. pose proof (item_src r items Y n it Hn) as [Wm Hi]. pose proof (item_k r items Y n it Hn) as Hk.
  unfold jointAt. rewrite (item_type r items Y n it Hn). destruct (isMimic (joint (it_src it) (it_ix it))) eqn:Em.
  - destruct (LK n it Hn Em) as (n' & it' & E1 & E2 & E3 & E4). pose proof (item_k r items Y n' it' E2) as Hk'.
    pose proof (item_type r items Y n it Hn) as Ty. unfold isMimic in Em. destruct (jm_type (joint (it_src it) (it_ix it))) as [|j s o|] eqn:Ej; try discriminate.
    pose proof (wf_mimic _ W (S n) j s o Hk Ty) as (_ & Rk & Rm & Rq & Rv & _).
    pose proof (wf_mimic _ Wm _ j s o Hi Ej) as (_ & Sk & Sm & Sq & Sv & Sd1 & Sd2).
    assert (Em' : isMimic (joint (it_src it) (it_ix it)) = true) by (unfold isMimic; now rewrite Ej).
    rewrite (lay_refs _ _ Y n it Hn Em'), E1 in *.
    pose proof (item_copied n' it' E2) as Cp. rewrite E3, E4 in Cp.
    apply jcalc_ext; [exact Vj | |]; intros c Hc; cbn [rnq rnv] in Hc; unfold shift.
    + rewrite Rq, Sq. apply (Hq _ _ _ Cp Sm). lia.
    + rewrite Rv, Sv. apply (Hw _ _ _ Cp Sm). lia.
  - destruct (wf_joint _ Wm _ Hi) as (_ & _ & _ & _ & F1 & F2 & _). pose proof (item_copied n it Hn) as Cp.
    apply jcalc_ext; [exact Vj | |]; intros c Hc; unfold shift.
    + apply (Hq _ _ _ Cp Em). rewrite <- F1. unfold isMimic in Em. destruct (jm_type (joint (it_src it) (it_ix it))); try discriminate; exact Hc.
    + apply (Hw _ _ _ Cp Em). rewrite <- F2. unfold isMimic in Em. destruct (jm_type (joint (it_src it) (it_ix it))); try discriminate; exact Hc.
Qed.
Lemma noVel_same m : sameVelocities m r noVel noVel. Proof. intros i k c _ _ _. reflexivity. Qed.
Lemma item_relPl n it q qr : nth_error items n = Some it -> validJoint (jm_type (joint (it_src it) (it_ix it))) ->
  sameCoordinates (it_src it) r q qr -> relPl r qr (S n) = se3_mul (it_pl it) (jM (jointAt (it_src it) q noVel (it_ix it))).
Proof.
  intros Hn Vj Hq. unfold relPl. rewrite (item_placement r items Y n it Hn), (item_jointAt n it q qr noVel noVel Hn Vj Hq (noVel_same _)). reflexivity.
Qed.
End Segments.
