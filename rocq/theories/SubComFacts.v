(* The passes of jacobianSubtreeCenterOfMass. *)
Require Import Reals List Arith ZArith Lia Lra Bool.
From Verif Require Import Vec3 Spatial Inertia InertiaFacts Joints Spec_Joints Deriv JointFacts JointFacts2 Model Spec_Model ModelFacts ModelTree ModelFacts2 Sums Data Kinematics Spec_Kin Spec_Mass KinFacts KinFacts2 KinFacts3 Spec_Dyn Rnea DynFacts DynFacts2 TreeSums MassFacts Crba CrbaFacts CrbaFacts2 Spec_Jac JacFacts JacFacts3 Spec_Com Com ComFacts ComFacts2 ComFacts3 ComFacts4 Jacobian SubCom.
Import ListNotations.
Local Open Scope nat_scope.

Lemma filter_all {A} (p : A -> bool) l : (forall x, In x l -> p x = true) -> filter p l = l.
Proof. induction l as [|a l IH]; intros H; [reflexivity|]. cbn [filter]. rewrite (H a (or_introl eq_refl)), IH; auto. intros x Hx. apply H. now right. Qed.
Lemma filter_revl {A} (p : A -> bool) l : rev (filter p l) = filter p (rev l).
Proof. induction l as [|a l IH]; [reflexivity|]. cbn [filter rev]. rewrite filter_app, <- IH. cbn [filter]. destruct (p a); cbn [rev]; [reflexivity | now rewrite app_nil_r]. Qed.
Lemma fold_filter {A S} (f : S -> A -> S) p l s : fold_left f (filter p l) s = fold_left (fun s x => if p x then f s x else s) l s.
Proof. revert s. induction l as [|a l IH]; intros s; [reflexivity|]. cbn [filter fold_left]. destruct (p a); cbn [fold_left]; apply IH. Qed.
Lemma fold_rows (f : nat -> Row -> Row) l : NoDup l -> forall d, gl (fold_left (fun d i => onRow d i (f i)) l d) = gl d /\
  forall j, rows (fold_left (fun d i => onRow d i (f i)) l d) j = if inb j l then f j (rows d j) else rows d j.
Proof.
  induction 1 as [|a l Ha N IH]; intros d; cbn [fold_left]; [split; reflexivity|]. destruct (IH (onRow d a (f a))) as [E1 E2]. split; [exact E1|]. intros j. rewrite E2.
  unfold inb. cbn [existsb]. fold (inb j l). rewrite onRow_at. destruct (Nat.eqb_spec a j) as [<-|].
  - cbn [orb]. destruct (inb a l) eqn:E; [apply inb_In in E; contradiction | reflexivity].
  - reflexivity.
Qed.

Section Sub.
Variable m : Model.
Hypothesis W : wellFormed m.
Hypothesis T : treeInv m.
Hypothesis Vm : validModel m.
Variables (q : vec) (r : nat).
Hypothesis Hr : r < m_njoints m.

Lemma subtree_anc : subtree m r = filter (anc m r) (seq 1 (m_njoints m - 1)).
Proof.
  destruct r as [|r'] eqn:E.
  - rewrite (ti_subtree0 _ T), filter_all; [reflexivity|]. intros x Hx. apply in_seq in Hx. apply (anc_root m W T). lia.
  - rewrite (ti_subtree _ T); [reflexivity | lia].
Qed.
Definition sumsC (j : nat) : V3 := subBodies3 m j (fun b => v3scale (mass (inertiaOf m b)) (bodyCom m q b)).
Definition gM (b : nat) : R := if b =? 0 then 0%R else mass (inertiaOf m b).
Definition gC (e : V3) (b : nat) : R := if b =? 0 then 0%R else v3dot e (v3scale (mass (inertiaOf m b)) (bodyCom m q b)).
Lemma mass_rec j : j < m_njoints m -> subtreeMass m j = (gM j + sumN (m_njoints m) (fun c => if childb m j c then subtreeMass m c else 0))%R.
Proof.
  assert (E : forall i, subtreeMass m i = subSum m i gM).
  { intros i. unfold subtreeMass. rewrite <- (subBodies_subSum m W) by reflexivity. apply subBodies_ext. intros b Hb _. unfold gM. destruct (Nat.eqb_spec b 0); [lia | reflexivity]. }
  intros Hj. rewrite E, (subSum_rec m W T j gM Hj). f_equal. apply sumN_ext. intros c _. now rewrite E.
Qed.
Lemma com_rec e j : j < m_njoints m -> v3dot e (sumsC j) = (gC e j + sumN (m_njoints m) (fun c => if childb m j c then v3dot e (sumsC c) else 0))%R.
Proof.
  assert (E : forall i, v3dot e (sumsC i) = subSum m i (gC e)).
  { intros i. unfold sumsC. rewrite subBodies3_dot, <- (subBodies_subSum m W) by reflexivity. apply subBodies_ext. intros b Hb _. unfold gC. destruct (Nat.eqb_spec b 0); [lia | reflexivity]. }
  intros Hj. rewrite E, (subSum_rec m W T j (gC e) Hj). f_equal. apply sumN_ext. intros c _. now rewrite E.
Qed.

(* what has been added to joint j once the joints k, k+1, ... have been processed *)
Definition part (F : nat -> R) k j : R := sumN (m_njoints m) (fun c => if (k <=? c) && childb m j c then F c else 0%R).
Lemma part_start F j : part F (m_njoints m) j = 0%R.
Proof. apply sumN_zero. intros c Hc. destruct (Nat.leb_spec (m_njoints m) c); [lia | reflexivity]. Qed.
Lemma part_step F i j : 0 < i < m_njoints m -> part F i j = (part F (i + 1) j + (if parent m i =? j then F i else 0))%R.
Proof.
  intros Hi. unfold part. rewrite <- (sumN_delta (m_njoints m) i (fun i => if parent m i =? j then F i else 0%R)) by lia. rewrite <- sumN_add. apply sumN_ext. intros c Hc.
  unfold childb. destruct (Nat.leb_spec i c), (Nat.leb_spec (i + 1) c), (Nat.eqb_spec i c), (Nat.ltb_spec 0 c); try lia; cbn [andb]; destruct (parent m c =? j); ring.
Qed.
Lemma part_all F k j : k <= j + 1 -> part F k j = sumN (m_njoints m) (fun c => if childb m j c then F c else 0%R).
Proof.
  intros Hk. apply sumN_ext. intros c Hc. unfold childb. destruct (Nat.leb_spec k c); [reflexivity|]. cbn [andb].
  destruct (Nat.ltb_spec 0 c); [|reflexivity]. pose proof (wf_parent _ W c ltac:(lia)). destruct (Nat.eqb_spec (parent m c) j); [lia | reflexivity].
Qed.

Definition start (d : Data) : Data :=
  let d := if r =? 0 then onRow d 0 (comZero 0) else d in
  let d := fold_left (subFirst m) (subtree m r) d in
  setGl d (setJcom (gl d) (fun _ => v3zero)).
Lemma subtree_nodup : NoDup (subtree m r).
Proof. rewrite subtree_anc. apply NoDup_filter, seq_NoDup. Qed.
Lemma start_rows d : (forall k, jcom (gl (start d)) k = v3zero) /\
  forall j, j < m_njoints m -> rows (start d) j =
    if (0 <? j) && anc m r j then setP3 (setSc (rows d j) F_mass (mass (inertiaOf m j))) F_com (v3scale (mass (inertiaOf m j)) (se3_actPoint (pl (rows d j) F_oMi) (lever (inertiaOf m j))))
    else if (r =? 0) && (j =? 0) then comZero 0 (rows d 0) else rows d j.
Proof.
  split; [reflexivity|]. intros j Hj. unfold start. cbv zeta. cbn [setGl rows]. set (d1 := if r =? 0 then _ else _).
  destruct (fold_rows (fun i r => setP3 (setSc r F_mass (mass (inertiaOf m i))) F_com (v3scale (mass (inertiaOf m i)) (se3_actPoint (pl r F_oMi) (lever (inertiaOf m i))))) _ subtree_nodup d1) as [_ E].
  unfold subFirst. rewrite E. 
  assert (EI : inb j (subtree m r) = (0 <? j) && anc m r j).
  { apply eq_true_iff_eq. rewrite inb_In, subtree_anc, filter_In, in_seq, andb_true_iff, Nat.ltb_lt. split; [intros [? ?]; split; [lia | assumption] | intros [? ?]; split; [lia | assumption]]. }
  rewrite EI. unfold d1. destruct (Nat.eqb_spec r 0) as [->|].
  - rewrite onRow_at. rewrite (Nat.eqb_sym j 0). destruct (Nat.eqb_spec 0 j) as [<-|]; reflexivity.
  - reflexivity.
Qed.

Section Pass.
Variable d : Data.
Hypothesis HP : placed m q d.
Hypothesis HS : forall i, 0 < i < m_njoints m -> jS (jd (rows d i)) = jS (jointAt m q noVel i).
Definition U (w : vec) i : V6 := motion_act (worldPl m q i) (jointTwist m q w i).
Definition masked (w : vec) i : V3 := if anc m r i then colTerm m q w i else v3zero.

Definition Inv (res : Mat3) (k : nat) (s : Data * Mat3) : Prop :=
  (forall i, 0 < i < m_njoints m -> pl (rows (fst s) i) F_oMi = worldPl m q i /\ jS (jd (rows (fst s) i)) = jS (jointAt m q noVel i)) /\
  (forall j, j < m_njoints m -> anc m r j = true -> j < k \/ j = 0 -> sc (rows (fst s) j) F_mass = (gM j + part (subtreeMass m) k j)%R /\
     forall e, v3dot e (p3 (rows (fst s) j) F_com) = (gC e j + part (fun c => v3dot e (sumsC c)) k j)%R) /\
  (forall j, 0 < j < m_njoints m -> anc m r j = true -> k <= j -> sc (rows (fst s) j) F_mass = subtreeMass m j /\ p3 (rows (fst s) j) F_com = subtreeCom m q j) /\
  (forall w, cols3Mul (m_nv m) (snd s) w = v3add (cols3Mul (m_nv m) res w) (upto m k (masked w))) /\
  (forall k, jcom (gl (fst s)) k = v3zero) /\
  (0 < r -> sc (rows (fst s) (parent m r)) F_mass = (sc (rows d (parent m r)) F_mass + (if k <=? r then subtreeMass m r else 0))%R).

Lemma back_rows s i k : 0 < i < m_njoints m -> rows (fst (subBack m s i)) k =
  if i =? k then comDiv 0 (rows (fst s) i) else if parent m i =? k then jcomAdd (rows (fst s) k) (rows (fst s) i) else rows (fst s) k.
Proof.
  intros Hi. pose proof (wf_parent _ W i Hi) as Hp. unfold subBack. cbv zeta. cbn [fst].
  match goal with |- rows (onRow ?dd i (comDiv 0)) k = _ => assert (E : forall k, rows dd k = if parent m i =? k then jcomAdd (rows (fst s) (parent m i)) (rows (fst s) i) else rows (fst s) k) by (intros; exact (onRow_at (fst s) (parent m i) (fun r => jcomAdd r (rows (fst s) i)) k0)) end.
  rewrite onRow_at, !E. destruct (Nat.eqb_spec i k) as [<-|].
  - destruct (Nat.eqb_spec (parent m i) i); [lia | reflexivity].
  - destruct (Nat.eqb_spec (parent m i) k) as [<-|]; reflexivity.
Qed.
Lemma back_J s i : 0 < i < m_njoints m -> pl (rows (fst s) i) F_oMi = worldPl m q i -> jS (jd (rows (fst s) i)) = jS (jointAt m q noVel i) ->
  sc (rows (fst s) i) F_mass = subtreeMass m i -> p3 (rows (fst s) i) F_com = sumsC i ->
  forall w, cols3Mul (m_nv m) (snd (subBack m s i)) w = v3add (cols3Mul (m_nv m) (snd s) w) (colTerm m q w i).
Proof.
  intros Hi HO HJ EM EC w. pose proof (wf_parent _ W i Hi) as Hp. destruct (wf_joint _ W i Hi) as (_ & _ & E1 & _ & EvE & _ & E4).
  unfold subBack. cbv zeta. cbn [snd]. rewrite E1, E4.
  match goal with |- cols3Mul _ (addCols3 _ _ ?f _) w = _ => assert (Ef : forall k, k < nvEOf m i -> f k = jcomCol (subtreeMass m i) (sumsC i) (motion_act (worldPl m q i) (colOf (jS (jointAt m q noVel i)) k))) end.
  { intros k Hk. cbv beta. set (d1 := onRow (fst s) (parent m i) _).
    assert (Er : rows d1 i = rows (fst s) i) by (unfold d1; rewrite onRow_at; destruct (Nat.eqb_spec (parent m i) i); [lia | reflexivity]).
    unfold onCo. cbn [rows setGl gl co setCo]. unfold put. cbn [CoT_beq]. rewrite Er, EM, EC. f_equal. unfold setCols. destruct (within _ _ _) eqn:Ew.
    - rewrite HO, HJ. do 2 f_equal. lia.
    - exfalso. assert (within (jm_idx_vE (joint m i)) (nvEOf m i) (jm_idx_vE (joint m i) + k) = true) by (apply within_true; lia). congruence. }
  rewrite cols3_addCols.
  - f_equal. rewrite (cols3_ext _ _ _ _ Ef), jcomCol_cols; [reflexivity|]. symmetry. apply (jS_lenE m W Vm q noVel i Hi).
  - destruct (nvEOf m i) as [|n] eqn:En; [|pose proof (inRange m W Vm i n Hi ltac:(lia)); lia]. destruct (wf_inrange m W i Hi) as [_ Hv]. lia.
Qed.
Lemma back_jcom s i : jcom (gl (fst (subBack m s i))) = jcom (gl (fst s)).
Proof. reflexivity. Qed.

Lemma sub_pass res : Inv res 1 (fold_left (subBack m) (rev (subtree m r)) (start d, res)).
Proof.
  rewrite subtree_anc, filter_revl, fold_filter. destruct (start_rows d) as [SJ SR].
  change (fold_left ?f (rev (seq 1 (m_njoints m - 1))) ?s) with (downward m f s).
  apply downward_inv; [apply (wf_n _ W) | |].
  - unfold Inv. cbn [fst snd]. split; [|split; [|split; [|split; [|split]]]].
    + intros i Hi. rewrite (SR i ltac:(lia)). destruct (HP i Hi) as [_ EP]. 
      destruct ((0 <? i) && anc m r i); [mem; split; [exact EP | apply HS, Hi]|]. destruct (Nat.eqb_spec i 0); [lia|]. rewrite andb_false_r. split; [exact EP | apply HS, Hi].
    + intros j Hj Ha _. rewrite part_start, (SR j Hj), Ha. unfold gM, gC. destruct (Nat.eqb_spec j 0) as [->|].
      * cbn [Nat.ltb Nat.leb andb]. rewrite (anc_0 m W T) in Ha. rewrite Ha. cbn [andb]. change (sc (comZero 0 (rows d 0)) F_mass) with 0%R. change (p3 (comZero 0 (rows d 0)) F_com) with v3zero. split; [ring|]. intros e. rewrite part_start. unfold v3dot. cbn. ring.
      * destruct (Nat.ltb_spec 0 j); [|lia]. cbn [andb]. mem. split; [ring|]. intros e. rewrite part_start. destruct (HP j ltac:(lia)) as [_ EP]. rewrite EP. unfold bodyCom. ring.
    + intros j Hj _ Hk. lia.
    + intros w. rewrite upto_none by lia. apply v3_ext; cbn; ring.
    + exact SJ.
    + intros H0. pose proof (wf_parent _ W r ltac:(lia)) as Hp. rewrite (SR (parent m r) ltac:(lia)). destruct (Nat.leb_spec (m_njoints m) r); [lia|].
      assert (Ea : anc m r (parent m r) = false) by (destruct (anc m r (parent m r)) eqn:E; [apply (anc_le m W T) in E; lia | reflexivity]).
      rewrite Ea, andb_false_r. destruct (Nat.eqb_spec r 0); [lia|]. cbn [andb]. ring.
  - intros i s Hi (I0 & I1 & I2 & I3 & I4 & I5). pose proof (wf_parent _ W i Hi) as Hp. destruct (anc m r i) eqn:Ai.
    + destruct (I1 i ltac:(lia) Ai ltac:(left; lia)) as [M1 C1]. rewrite part_all in M1 by lia. rewrite <- (mass_rec i ltac:(lia)) in M1.
      assert (C2 : p3 (rows (fst s) i) F_com = sumsC i). { apply v3_dot_ext. intros e. rewrite C1, part_all by lia. symmetry. apply com_rec. lia. }
      destruct (I0 i Hi) as [HO HJ]. unfold Inv. split; [|split; [|split; [|split; [|split]]]].
      * intros k Hk. rewrite (back_rows s i k Hi). destruct (i =? k) eqn:Ek; [apply Nat.eqb_eq in Ek; subst k; unfold comDiv; mem; apply I0, Hk|].
        destruct (parent m i =? k); [unfold jcomAdd, addMass; mem|]; apply I0, Hk.
      * intros j Hj Aj Hk. rewrite (back_rows s i j Hi). destruct (Nat.eqb_spec i j) as [->|]; [lia|]. destruct (I1 j Hj Aj ltac:(lia)) as [Mj Cj].
        rewrite (part_step _ i j Hi). destruct (parent m i =? j) eqn:Epj.
        -- unfold jcomAdd, addMass. mem. rewrite Mj, M1. split; [ring|]. intros e. rewrite (part_step _ i j Hi), Epj.
           rewrite v3dot_add_r, Cj, C2. ring.
        -- split; [rewrite Mj; ring|]. intros e. rewrite (part_step _ i j Hi), Epj, Cj. ring.
      * intros j Hj Aj Hk. rewrite (back_rows s i j Hi). destruct (Nat.eqb_spec i j) as [<-|].
        -- rewrite comDiv_mass, comDiv_com, M1, C2. split; reflexivity.
        -- destruct (Nat.eqb_spec (parent m i) j); [lia|]. apply I2; auto; lia.
      * intros w. rewrite (back_J s i Hi HO HJ M1 C2 w), I3, (upto_step m i _ Hi). unfold masked at 3. rewrite Ai.
        generalize (cols3Mul (m_nv m) res w) (upto m (i + 1) (masked w)) (colTerm m q w i). clear. intros x y z. apply v3_ext; cbn; ring.
      * intros k. rewrite back_jcom. apply I4.
      * intros H0. rewrite (back_rows s i _ Hi). pose proof (anc_le m W T r i ltac:(lia) Ai) as Hri. pose proof (wf_parent _ W r ltac:(lia)) as Hpr.
        destruct (Nat.eqb_spec i (parent m r)); [lia|]. destruct (Nat.eqb_spec (parent m i) (parent m r)) as [Epp|Npp].
        -- assert (i = r) as ->.
           { destruct (Nat.eq_dec i r); [assumption|]. exfalso. rewrite (anc_step m W T r i Hi) in Ai. destruct (Nat.eqb_spec r i); [lia|]. cbn [orb] in Ai. rewrite Epp in Ai. apply (anc_le m W T) in Ai; lia. }
           unfold jcomAdd, addMass. mem. rewrite (I5 H0), M1. destruct (Nat.leb_spec (r + 1) r), (Nat.leb_spec r r); try lia. ring.
        -- rewrite (I5 H0). destruct (Nat.leb_spec (i + 1) r), (Nat.leb_spec i r); try lia; try reflexivity. assert (i = r) by lia. congruence.
    + split; [exact I0|]. split; [|split; [|split; [|split; [exact I4|]]]].
      * intros j Hj Aj Hk. destruct (I1 j Hj Aj ltac:(lia)) as [Mj Cj].
        assert (E : (parent m i =? j) = false).
        { destruct (Nat.eqb_spec (parent m i) j) as [<-|]; [|reflexivity]. rewrite (anc_step m W T r i Hi), Aj, orb_true_r in Ai. discriminate. }
        rewrite (part_step _ i j Hi), E. split; [rewrite Mj; ring|]. intros e. rewrite (part_step _ i j Hi), E, Cj. ring.
      * intros j Hj Aj Hk. apply I2; auto. destruct (Nat.eq_dec i j) as [->|]; [congruence | lia].
      * intros w. rewrite I3, (upto_step m i _ Hi). unfold masked at 3. rewrite Ai.
        generalize (cols3Mul (m_nv m) res w) (upto m (i + 1) (masked w)). clear. intros x y. apply v3_ext; cbn; ring.
      * intros H0. rewrite (I5 H0). assert (i <> r) by (intros ->; rewrite (anc_self m W T) in Ai by lia; discriminate).
        destruct (Nat.leb_spec (i + 1) r), (Nat.leb_spec i r); try lia; reflexivity.
Qed.
End Pass.
End Sub.
