(* The force supported by a frame. *)
Require Import Reals List Arith Lia Lra Bool.
From Verif Require Import Vec3 Spatial Inertia InertiaFacts Spec_Spatial Joints Deriv JointFacts JointFacts2 Model Spec_Model ModelFacts ModelTree ModelFacts2 ModelFacts3 Sums Data Kinematics Spec_Kin Spec_Dyn Spec_Mass KinFacts KinFacts2 Rnea DynFacts DynFacts2 TreeSums MassFacts CrbaFacts CrbaFacts2 ComFacts3 Supported Spec_Supported SupportedFacts SupportedFacts2.
Import ListNotations.
Local Open Scope nat_scope.

Lemma sumR_app a b : sumR (a ++ b) = (sumR a + sumR b)%R.
Proof. unfold sumR. induction a as [|x a IH]; cbn [app fold_right]; [ring|]. rewrite IH. ring. Qed.
Lemma sumR_filter (h : nat -> R) p n : sumR (map h (filter p (seq 0 n))) = sumN n (fun b => if p b then h b else 0%R).
Proof.
  induction n as [|n IH]; [reflexivity|]. rewrite List.seq_S, filter_app, map_app, sumR_app, IH. cbn [sumN Nat.add filter]. f_equal.
  unfold sumR. destruct (p n); cbn [map fold_right]; ring.
Qed.
Lemma sumV6_dot {A} X (h : A -> V6) l : v6dot X (sumV6 (map h l)) = sumR (map (fun x => v6dot X (h x)) l).
Proof. induction l as [|x l IH]; cbn [map sumV6]; [apply v6dot_0_r|]. rewrite v6dot_add_r, IH. reflexivity. Qed.
Lemma fold_if_add {A} (p : A -> bool) (h : A -> V6) l : forall s, fold_left (fun s c => if negb (p c) then s else v6add s (h c)) l s = v6add s (sumV6 (map (fun c => if p c then h c else v6zero) l)).
Proof.
  induction l as [|x l IH]; intros s; cbn [fold_left map sumV6]; [now rewrite v6add_0_r|]. rewrite IH. destruct (p x); cbn [negb]; [now rewrite v6add_assoc | now rewrite v6add_0_l].
Qed.

Section Force.
Variables (eps : R) (m : Model).
Hypothesis B : Built eps m.
Hypothesis Vm : validModel m.
Let W : wellFormed m := Built_wf eps m B.
Let T : treeInv m := Built_tree eps m B.
Variables (q v a : vec) (fx : nat -> Force).
Hypothesis Hq : validState m q.

(* what the inverse dynamics leaves in the data *)
Lemma rnea_rows (d : Data) : let d' := rneaDataExt m d q v a fx in forall i, 0 < i < m_njoints m ->
  pl (rows d' i) F_oMi = pl (rows d i) F_oMi /\ mo (rows d' i) F_a = mo (rows d i) F_a /\ pl (rows d' i) F_liMi = relPl m q i /\
  mo (rows d' i) F_v = bodyVel m q v i /\
  forall X, v6dot X (force_act (worldPl m q i) (mo (rows d' i) F_f)) = subSum m i (fun b => v6dot X (jointWrench m q v a fx b)).
Proof.
  cbv zeta. unfold rneaDataExt. set (dz := zeroVe d F_tau).
  set (F := fun i r rp => let r := rneaRow m q v a i r rp in setMo r F_f (v6sub (mo r F_f) (fx i))).
  set (d0 := setRow dz 0 (setMo (setMo (rows dz 0) F_v v6zero) F_a_gf (v6opp (m_gravity m)))).
  destruct (rnea_forward m W T Vm dz q v a Hq fx) as (_ & FK & FV). cbv zeta in FK, FV. fold d0 F in FK, FV.
  destruct (upward_rows m F d0 W) as (_ & _ & HR). set (d1 := upward m (rowStep m F) d0) in *.
  assert (K : forall i, 0 < i < m_njoints m -> pl (rows d1 i) F_oMi = pl (rows d i) F_oMi /\ mo (rows d1 i) F_a = mo (rows d i) F_a).
  { intros i Hi. cbv zeta in HR. rewrite (HR i Hi). unfold F, rneaRow, velRow. 
    assert (E : rows d0 i = rows d i) by (unfold d0, dz; mem; rewrite putn_other by lia; reflexivity). rewrite E.
    destruct (0 <? parent m i); mem; split; reflexivity. }
  clearbody d1. clear HR d0 dz F.
  pose (phi := fun X (s : Data) i => v6dot X (force_act (worldPl m q i) (mo (rows s i) F_f))).
  pose (Inv := fun k (s : Data) => (forall i, 0 < i < m_njoints m -> pl (rows s i) F_oMi = pl (rows d i) F_oMi /\ mo (rows s i) F_a = mo (rows d i) F_a /\ pl (rows s i) F_liMi = relPl m q i /\ mo (rows s i) F_v = bodyVel m q v i) /\
     forall X, accInv m (phi X) d1 false k s).
  assert (H : Inv 1 (downward m (torqueStep m F_tau) d1)).
  { apply downward_inv.
    - apply (wf_n m W).
    - split; [|intros X; apply accInv_start].
      intros i Hi. destruct (K i Hi) as [K1 K2]. destruct (FK i Hi) as (_ & K3 & _). destruct (FV i (proj2 Hi)) as [K4 _]. auto.
    - intros i s Hi (I1 & I2). pose proof (wf_parent m W i Hi) as Hp. destruct (I1 i Hi) as (_ & _ & EL & _).
      assert (Ef : forall l, mo (rows (torqueStep m F_tau s i) l) F_f = if ((0 <? parent m i) && (parent m i =? l))%bool then v6add (mo (rows s l) F_f) (force_act (relPl m q i) (mo (rows s i) F_f)) else mo (rows s l) F_f).
      { intros l. unfold torqueStep. rewrite EL. destruct (0 <? parent m i); mem; [|reflexivity].
        cbn [andb]. destruct (Nat.eqb_spec (parent m i) l) as [->|Hn]; [rewrite putn_same; mem; reflexivity | now rewrite putn_other by exact Hn]. }
      split.
      + intros l Hl. assert (Er : pl (rows (torqueStep m F_tau s i) l) F_oMi = pl (rows s l) F_oMi /\ mo (rows (torqueStep m F_tau s i) l) F_a = mo (rows s l) F_a /\
           pl (rows (torqueStep m F_tau s i) l) F_liMi = pl (rows s l) F_liMi /\ mo (rows (torqueStep m F_tau s i) l) F_v = mo (rows s l) F_v).
        { unfold torqueStep. destruct (0 <? parent m i); mem; [|auto].
          destruct (Nat.eq_dec (parent m i) l) as [->|Hn]; [rewrite putn_same; mem; auto | rewrite putn_other by exact Hn; auto]. }
        destruct Er as (-> & -> & -> & ->). apply I1, Hl.
      + intros X. apply (accInv_step m W (phi X) d1 false i s); [exact Hi | apply I2|].
        intros l Hl Hr. cbn [orb] in Hr. apply Nat.ltb_lt in Hr. unfold phi. rewrite Ef.
        destruct (Nat.eqb_spec (parent m i) l) as [<-|Hn]; [|rewrite andb_false_r; ring].
        destruct (Nat.ltb_spec 0 (parent m i)); [cbn [andb]|lia]. rewrite force_act_add, v6dot_add_r. f_equal.
        rewrite (worldPl_step m W T q i Hi). rewrite force_act_mul by (apply (worldPl_rot m W T Vm); [exact Hq | lia]). reflexivity. }
  destruct H as [H1 H2]. intros i Hi.
  assert (EA : rows (addArmature m a (downward m (torqueStep m F_tau) d1)) i = rows (downward m (torqueStep m F_tau) d1) i) by reflexivity.
  rewrite EA. destruct (H1 i Hi) as (A1 & A2 & A3 & A4). repeat (split; [assumption|]). intros X.
  pose proof (acc_complete m W T (phi X) d1 false 1 _ (H2 X) i (proj2 Hi)) as AC. unfold phi at 1 in AC. rewrite AC; [|destruct i; [lia | reflexivity] | lia].
  apply (subSum_ext m). intros b Hb An. pose proof (anc_le m W T i b Hb An). unfold phi, jointWrench. destruct (FK b ltac:(lia)) as (_ & _ & ->). reflexivity.
Qed.

Hypothesis FO : framesOrdered m.
Hypothesis GF : goodFrames eps m.
Hypothesis RM : regularMasses eps m.
Variable f : nat.
Hypothesis Hf : f < m_nframes m.
Let j := fr_parentJoint (frameAt m f).
Let P := fr_placement (frameAt m f).
Hypothesis Hj : 0 < j.
Lemma subtree_sum (h : nat -> R) : sumR (map h (subtree m j)) = subSum m j h.
Proof.
  pose proof (joint_of_frame eps m B f Hf) as Hjn. fold j in Hjn. rewrite (ti_subtree m T j (conj Hj Hjn)).
  unfold subSum. rewrite <- (sumR_filter h (anc m j)). pose proof (wf_n m W). replace (seq 0 (m_njoints m)) with (0 :: seq 1 (m_njoints m - 1)).
  - cbn [filter]. rewrite (anc_0 m W T). destruct (Nat.eqb_spec j 0); [lia|]. reflexivity.
  - destruct (m_njoints m); [lia|]. cbn [seq Nat.sub]. now rewrite Nat.sub_0_r.
Qed.
Lemma below_sum (h : nat -> R) : sumR (map h (skipn 1 (subtree m j))) = (subSum m j h - h j)%R.
Proof.
  rewrite <- subtree_sum. destruct (subtree_tl eps m B f Hf Hj) as [_ E]. fold j in E. rewrite E at 2. unfold sumR. cbn [map fold_right]. ring.
Qed.
Lemma children_sum (g : nat -> R) : sumR (map (fun c => if parent m c =? j then subSum m c g else 0%R) (skipn 1 (subtree m j))) = sumR (map g (skipn 1 (subtree m j))).
Proof.
  pose proof (joint_of_frame eps m B f Hf) as Hjn. fold j in Hjn. rewrite !below_sum. pose proof (wf_parent m W j (conj Hj Hjn)).
  destruct (Nat.eqb_spec (parent m j) j); [lia|]. rewrite (subSum_rec m W T j g Hjn). unfold subSum at 1.
  rewrite (sumN_ext _ _ (fun c => if childb m j c then subSum m c g else 0%R)); [ring|]. intros c Hc. unfold childb.
  destruct (Nat.ltb_spec 0 c) as [H0|H0]; cbn [andb].
  - destruct (Nat.eqb_spec (parent m c) j) as [E|E]; [|destruct (anc m j c); reflexivity]. subst j. rewrite <- E, (anc_parent m W T c) by lia. reflexivity.
  - replace c with 0 by lia. rewrite (anc_0 m W T). destruct (Nat.eqb_spec j 0); [lia | reflexivity].
Qed.
Theorem force_frame d : exists L K, enumerates L (carried m f) /\ enumerates K (below m j) /\
  force_act (worldFrame m q f) (computeSupportedForceByFrame eps m (rneaDataExt m (forwardKinematics2 m d q v a) q v a fx) f) =
  v6add (sumV6 (map (frameWrench m q v a) L)) (sumV6 (map (jointWrench m q v a fx) K)).
Proof.
  pose proof (joint_of_frame eps m B f Hf) as Hjn. fold j in Hjn.
  set (d' := rneaDataExt m (forwardKinematics2 m d q v a) q v a fx).
  destruct (inertia_frame eps m B Vm FO GF RM q f Hq Hf d') as (L & En & _ & E). destruct (subtree_tl eps m B f Hf Hj) as [EK _]. fold j in EK.
  exists L, (skipn 1 (subtree m j)). split; [exact En|]. split; [exact EK|].
  pose proof (HW eps m B Vm q f Hq Hf) as Rw. fold j in Rw. pose proof (HP eps m FO GF f Hf f (carried_self m f)) as Rp. fold P in Rp.
  pose proof (HWP eps m B Vm FO GF q f Hq Hf f (carried_self m f)) as Rwp.
  unfold computeSupportedForceByFrame. fold j P. set (fI := computeSupportedInertiaByFrame eps m d' f false) in *.
  assert (EW : worldFrame m q f = se3_mul (worldPl m q j) P) by reflexivity.
  destruct (rnea_rows (forwardKinematics2 m d q v a) j (conj Hj Hjn)) as (D1 & D2 & _ & D4 & _). fold d' in D1, D2, D4.
  destruct (fk2_all m W T d q v a) as (H1 & H2 & H3 & H4 & H5).
  assert (D1' : pl (rows d' j) F_oMi = worldPl m q j) by (rewrite D1; apply H1; split; assumption).
  assert (D2' : mo (rows d' j) F_a = bodyAcc m q v a j) by (rewrite D2; apply (acc_body m W T Vm q v a); auto).
  unfold getFrameVelocity, getFrameAcceleration. rewrite D1', D2', D4, <- EW.
  rewrite (fold_if_add (fun c => parent m c =? j)). rewrite EW at 1. rewrite force_act_mul by exact Rw. rewrite force_act_actInv by apply Rp.
  rewrite force_act_add. f_equal.
  - rewrite <- force_act_mul by exact Rw. rewrite <- EW. rewrite inertia_vxiv_spec, v6add_comm, wrench_world by exact Rwp.
    rewrite !E. rewrite EW. rewrite !motion_act_chain by assumption.
    rewrite (sumV6_map_lin (force_cross _)) by (sring || apply force_cross_add_r). rewrite <- sumV6_map_add. f_equal. apply map_ext_in. intros g Hg. apply En in Hg.
    unfold frameWrench. rewrite (carried_joint m f g Hg). fold j. rewrite wrench_world by apply (HWP eps m B Vm FO GF q f Hq Hf g Hg).
    assert (EG : forall x, motion_act (worldFrame m q g) (motion_actInv (fr_placement (frameAt m g)) x) = motion_act (worldPl m q j) x).
    { intros x. unfold worldFrame. rewrite (carried_joint m f g Hg). fold j. apply motion_act_chain; [exact Rw | exact (HP eps m FO GF f Hf g Hg)]. }
    rewrite !EG. reflexivity.
  - apply v6_dot_ext. intros X. rewrite (sumV6_map_lin (force_act (worldPl m q j))) by first [apply force_act_0 | apply force_act_add].
    rewrite !sumV6_dot. rewrite <- (children_sum (fun b => v6dot X (jointWrench m q v a fx b))). f_equal. apply map_ext_in. intros c Hc. 
    assert (Hcn : 0 < c < m_njoints m). { apply EK in Hc. destruct Hc as (K1 & K2 & K3). pose proof (proj2 (anc_onPath m T j c K1) K2) as H. pose proof (anc_le m W T j c K1 H). lia. }
    destruct (Nat.eqb_spec (parent m c) j) as [Ep|Ep]; [|cbv beta iota; rewrite ?force_act_0; apply v6dot_0_r].
    destruct (rnea_rows (forwardKinematics2 m d q v a) c Hcn) as (_ & _ & C3 & _ & C5). fold d' in C3, C5. rewrite C3, <- C5.
    rewrite (worldPl_step m W T q c Hcn), Ep. rewrite force_act_mul by exact Rw. reflexivity.
Qed.
End Force.
