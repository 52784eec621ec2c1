Require Import Reals List Arith ZArith Bool Lia.
From Verif Require Import Vec3 Spatial Model Data Kinematics KinFacts2 CopyData.
Import ListNotations.
Local Open Scope nat_scope.

Lemma copy_fold level o n d0 : let d := fold_left (fun d j => setRow d j (copyRow level (rows o j) (rows d j))) (seq 1 n) d0 in
  gl d = gl d0 /\ forall j, rows d j = if (1 <=? j) && (j <? S n) then copyRow level (rows o j) (rows d0 j) else rows d0 j.
Proof.
  induction n as [|n IH]; intros d.
  - split; [reflexivity|]. intros j. destruct j; reflexivity.
  - unfold d. rewrite List.seq_S, fold_left_app. cbn [fold_left Nat.add]. destruct IH as (G & H). split; [exact G|]. intros j. cbn [setRow rows]. unfold putn. rewrite !H.
    destruct (Nat.eqb_spec (S n) j) as [<-|N].
    + replace (S n <? S n) with false by (symmetry; apply Nat.ltb_ge; lia). replace (S n <? S (S n)) with true by (symmetry; apply Nat.ltb_lt; lia).
      replace (1 <=? S n) with true by (symmetry; apply Nat.leb_le; lia). reflexivity.
    + destruct (Nat.leb_spec 1 j), (Nat.ltb_spec j (S n)), (Nat.ltb_spec j (S (S n))); cbn [andb]; try lia; reflexivity.
Qed.
Section Copy.
Variables (m : Model) (o d d' : Data) (level : Z).
Hypothesis C : copyData m o d level = Ok d' tt.
Lemma copy_rows j : 0 < j < m_njoints m -> rows d' j = copyRow level (rows o j) (rows d j).
Proof.
  intros Hj. unfold copyData in C. destruct (POSITION <=? level)%Z; [|discriminate]. injection C as <-. destruct (copy_fold level o (m_njoints m - 1) d) as (_ & H). rewrite H.
  destruct (Nat.leb_spec 1 j), (Nat.ltb_spec j (S (m_njoints m - 1))); try lia. reflexivity.
Qed.
Lemma copy_rest : gl d' = gl d /\ forall j, (j = 0 \/ m_njoints m <= j) -> rows d' j = rows d j.
Proof.
  unfold copyData in C. destruct (POSITION <=? level)%Z; [|discriminate]. injection C as <-. destruct (copy_fold level o (m_njoints m - 1) d) as (G & H). split; [exact G|].
  intros j Hj. rewrite H. destruct (Nat.leb_spec 1 j), (Nat.ltb_spec j (S (m_njoints m - 1))); try lia; reflexivity.
Qed.
Lemma copy_pl j : 0 < j < m_njoints m -> pl (rows d' j) F_oMi = pl (rows o j) F_oMi /\ pl (rows d' j) F_liMi = pl (rows d j) F_liMi.
Proof. intros Hj. rewrite (copy_rows j Hj). unfold copyRow. destruct (VELOCITY <=? level)%Z, (ACCELERATION <=? level)%Z; split; reflexivity. Qed.
Lemma copy_v j : 0 < j < m_njoints m -> mo (rows d' j) F_v = if (VELOCITY <=? level)%Z then mo (rows o j) F_v else mo (rows d j) F_v.
Proof. intros Hj. rewrite (copy_rows j Hj). unfold copyRow. destruct (VELOCITY <=? level)%Z, (ACCELERATION <=? level)%Z; reflexivity. Qed.
Lemma copy_a j t : 0 < j < m_njoints m -> In t [F_a; F_a_gf; F_f] -> mo (rows d' j) t = if (ACCELERATION <=? level)%Z then mo (rows o j) t else mo (rows d j) t.
Proof.
  intros Hj Ht. rewrite (copy_rows j Hj). unfold copyRow.
  destruct (VELOCITY <=? level)%Z, (ACCELERATION <=? level)%Z; destruct Ht as [<-|[<-|[<-|[]]]]; reflexivity.
Qed.
Lemma copy_others j : 0 < j < m_njoints m -> (forall t, ~ In t [F_v; F_a; F_a_gf; F_f] -> mo (rows d' j) t = mo (rows d j) t) /\
  yi (rows d' j) = yi (rows d j) /\ m6 (rows d' j) = m6 (rows d j) /\ p3 (rows d' j) = p3 (rows d j) /\ sc (rows d' j) = sc (rows d j) /\ jd (rows d' j) = jd (rows d j).
Proof.
  intros Hj. rewrite (copy_rows j Hj). unfold copyRow. split.
  - intros t N. destruct (VELOCITY <=? level)%Z, (ACCELERATION <=? level)%Z; destruct t; try reflexivity; exfalso; apply N; cbn; tauto.
  - destruct (VELOCITY <=? level)%Z, (ACCELERATION <=? level)%Z; repeat split.
Qed.
Lemma copy_frames f : 0 < f < m_nframes m -> fr_parentJoint (frameAt m f) < m_njoints m -> pl (rows d 0) F_oMi = pl (rows o 0) F_oMi ->
  oMf (gl (updateFramePlacements m d')) f = oMf (gl (updateFramePlacements m o)) f.
Proof.
  intros Hf Hp H0. assert (E : pl (rows d' (fr_parentJoint (frameAt m f))) F_oMi = pl (rows o (fr_parentJoint (frameAt m f))) F_oMi).
  { destruct (Nat.eq_dec (fr_parentJoint (frameAt m f)) 0) as [->|N]; [|apply copy_pl; lia]. rewrite (proj2 copy_rest 0) by lia. exact H0. }
  pose proof E. rewrite !frames_loop by assumption. now rewrite E.
Qed.
Lemma chain_ext s k : (forall j, In j s -> pl (rows d' j) F_liMi = pl (rows d j) F_liMi) -> chainBack m d' s k = chainBack m d s k.
Proof.
  intros H. unfold chainBack. assert (G : forall j, In j (rev (skipn (S k) s)) -> pl (rows d' j) F_liMi = pl (rows d j) F_liMi).
  { intros j I. apply H. apply in_rev in I. rewrite <- (firstn_skipn (S k) s). apply in_or_app. now right. }
  generalize se3_Identity. induction (rev (skipn (S k) s)) as [|a l IH]; intros M; [reflexivity|]. cbn [fold_left]. rewrite (G a) by now left. apply IH. intros j I. apply G. now right.
Qed.
Lemma copy_liMi j : pl (rows d' j) F_liMi = pl (rows d j) F_liMi.
Proof.
  destruct (Nat.eq_dec j 0) as [->|N]; [now rewrite (proj2 copy_rest 0) by lia|]. destruct (Nat.lt_ge_cases j (m_njoints m)); [apply copy_pl; lia|]. now rewrite (proj2 copy_rest j) by lia.
Qed.
Lemma copy_relative r t : 0 < r < m_njoints m -> 0 < t < m_njoints m ->
  getRelativePlacement m d' r t C_WORLD = getRelativePlacement m o r t C_WORLD /\ getRelativePlacement m d' r t C_LOCAL = getRelativePlacement m d r t C_LOCAL.
Proof.
  intros Hr Ht. unfold getRelativePlacement. rewrite (proj1 (copy_pl r Hr)), (proj1 (copy_pl t Ht)). split; [reflexivity|].
  destruct (findCommonAncestor m r t) as [s ((x, kr), kt)| |]; try reflexivity. now rewrite !chain_ext by (intros; apply copy_liMi).
Qed.
Lemma copy_velocities j P rf : 0 < j < m_njoints m -> (VELOCITY <= level)%Z -> getVelocity d' j rf = getVelocity o j rf /\ getFrameVelocity d' j P rf = getFrameVelocity o j P rf.
Proof.
  intros Hj Hl. apply Z.leb_le in Hl. pose proof (copy_v j Hj) as V. rewrite Hl in V. unfold getVelocity, getFrameVelocity. rewrite V, (proj1 (copy_pl j Hj)). split; reflexivity.
Qed.
Lemma copy_accelerations j P rf : 0 < j < m_njoints m -> (ACCELERATION <= level)%Z ->
  getAcceleration d' j rf = getAcceleration o j rf /\ getFrameAcceleration d' j P rf = getFrameAcceleration o j P rf /\
  getClassicalAcceleration d' j rf = getClassicalAcceleration o j rf /\ getFrameClassicalAcceleration d' j P rf = getFrameClassicalAcceleration o j P rf /\
  mo (rows d' j) F_f = mo (rows o j) F_f /\ mo (rows d' j) F_a_gf = mo (rows o j) F_a_gf.
Proof.
  intros Hj Hl. assert (Hv : (VELOCITY <= level)%Z) by (unfold VELOCITY, ACCELERATION in *; lia).
  destruct (copy_velocities j P rf Hj Hv) as (V1 & V2). apply Z.leb_le in Hl.
  assert (A : forall t, In t [F_a; F_a_gf; F_f] -> mo (rows d' j) t = mo (rows o j) t) by (intros t I; rewrite (copy_a j t Hj I), Hl; reflexivity).
  assert (A1 : getAcceleration d' j rf = getAcceleration o j rf) by (unfold getAcceleration; rewrite (A F_a), (proj1 (copy_pl j Hj)) by (cbn; tauto); reflexivity).
  assert (A2 : getFrameAcceleration d' j P rf = getFrameAcceleration o j P rf) by (unfold getFrameAcceleration; rewrite (A F_a), (proj1 (copy_pl j Hj)) by (cbn; tauto); reflexivity).
  refine (conj A1 (conj A2 (conj _ (conj _ (conj (A F_f _) (A F_a_gf _)))))); [| |cbn; tauto|cbn; tauto].
  - unfold getClassicalAcceleration. now rewrite V1, A1.
  - unfold getFrameClassicalAcceleration. now rewrite V2, A2.
Qed.
End Copy.
Lemma copy_throws m o d level : copyData m o d level = Throw d <-> (level < POSITION)%Z.
Proof. unfold copyData. destruct (Z.leb_spec POSITION level); split; intros; try discriminate; try lia; reflexivity. Qed.
Lemma copy_ok m o d level : (POSITION <= level)%Z -> exists d', copyData m o d level = Ok d' tt.
Proof. intros H. unfold copyData. apply Z.leb_le in H. rewrite H. now eexists. Qed.
