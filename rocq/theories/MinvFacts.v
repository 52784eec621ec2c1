(* Columns of the inverse of the joint space inertia matrix: what the two last passes of computeMinverse do of one column is what the articulated-body
   algorithm does of the unit torque of that column. *)
Require Import Reals List Arith ZArith Lia Lra Bool.
From Verif Require Import Vec3 Spatial Inertia InertiaFacts Joints JointFacts Model Spec_Model ModelFacts ModelTree ModelFacts2 Sums Data Kinematics KinFacts TreeSums DynFacts Spec_Mass MassFacts Rnea Crba Aba CrbaFacts JacFacts Spec_Aba AbaCore Minverse.
Import ListNotations.
Local Open Scope nat_scope.
Local Open Scope bool_scope.

Section Cols.
Variable m : Model.
Hypothesis W : wellFormed m.
Hypothesis T : treeInv m.
Hypothesis Vm : validModel m.
Hypothesis NM : noMimic m.
Hypothesis DF : depthFirst m.
Variables (o a : nat).
Hypothesis Ho : 0 < o < m_njoints m.
Hypothesis Ha : a < nvOf m o.
Let l := idx_v m o + a.

Lemma nt_lt i : (Z.of_nat (nvOf m i) <? nvSubtree m i)%Z = (nvOf m i <? Z.to_nat (nvSubtree m i)).
Proof. destruct (Z.ltb_spec (Z.of_nat (nvOf m i)) (nvSubtree m i)), (Nat.ltb_spec (nvOf m i) (Z.to_nat (nvSubtree m i))); try reflexivity; lia. Qed.
Lemma below i : 0 < i < m_njoints m -> nvOf m i < Z.to_nat (nvSubtree m i) ->
  within (idx_v m i + nvOf m i) (Z.to_nat (nvSubtree m i) - nvOf m i) l = anc m i o && negb (i =? o).
Proof.
  intros Hi Hn. pose proof (within_subtree m W T Vm NM DF i o a Hi Ho Ha) as A. pose proof (within_own m W NM i o a Hi Ho Ha) as B. fold l in A, B.
  rewrite <- A, <- B. unfold within. destruct (Nat.leb_spec (idx_v m i) l), (Nat.leb_spec (idx_v m i + nvOf m i) l), (Nat.ltb_spec l (idx_v m i + Z.to_nat (nvSubtree m i))),
    (Nat.ltb_spec l (idx_v m i + nvOf m i + (Z.to_nat (nvSubtree m i) - nvOf m i))), (Nat.ltb_spec l (idx_v m i + nvOf m i)); cbn; try reflexivity; lia.
Qed.
Lemma leaf_own i : 0 < i < m_njoints m -> Z.to_nat (nvSubtree m i) <= nvOf m i -> anc m i o = true -> i = o.
Proof.
  intros Hi Hn A. pose proof (within_subtree m W T Vm NM DF i o a Hi Ho Ha) as A'. pose proof (within_own m W NM i o a Hi Ho Ha) as B. fold l in A', B.
  rewrite A in A'. apply within_true in A'. assert (B' : within (idx_v m i) (nvOf m i) l = true) by (apply within_true; lia).
  rewrite B in B'. now apply Nat.eqb_eq.
Qed.

Section One.
Variables (i : nat) (J U : list V6) (D : nat -> nat -> R) (g : Glob).
Hypothesis Hi : 0 < i < m_njoints m.
Let g' := minvFill m i J U D g.
Lemma fill_minv j c : 0 < j < m_njoints m -> c < nvOf m j ->
  ma g' F_Minv (idx_v m j + c) l =
   if i =? j then (if i =? o then D c a else if anc m i o then (- v6dot (colOf (colsMul J D) c) (fcrb g 0 l))%R else ma g F_Minv (idx_v m j + c) l)
   else ma g F_Minv (idx_v m j + c) l.
Proof.
  intros Hj Hc. unfold g', minvFill. destruct (jm_v m W Vm NM i Hi) as (-> & _ & -> & _). rewrite nt_lt.
  pose proof (within_own m W NM i j c Hi Hj Hc) as B1. pose proof (within_own m W NM i o a Hi Ho Ha) as B2. fold l in B2.
  destruct (Nat.ltb_spec (nvOf m i) (Z.to_nat (nvSubtree m i))) as [Hn|Hn].
  - pose proof (below i Hi Hn) as B3.
    assert (E : forall G : Glob, ma G F_Minv = ma (onMinv (onMinv g (setBlock (idx_v m i) (idx_v m i) (nvOf m i) (nvOf m i) D)) (setBlock (idx_v m i) (idx_v m i + nvOf m i) (nvOf m i) (Z.to_nat (nvSubtree m i) - nvOf m i)
       (fun k l => (- v6dot (colOf (colsMul J D) k) (fcrb g 0 (idx_v m i + nvOf m i + l)%nat))%R))) F_Minv -> ma G F_Minv (idx_v m j + c) l =
       if i =? j then (if i =? o then D c a else if anc m i o then (- v6dot (colOf (colsMul J D) c) (fcrb g 0 l))%R else ma g F_Minv (idx_v m j + c) l) else ma g F_Minv (idx_v m j + c) l).
    { intros G ->. unfold onMinv. cbn [ma setMa put MaT_beq]. unfold setBlock. rewrite B1, B2, B3. destruct (Nat.eqb_spec i j) as [<-|Hij]; cbn [andb]; [|reflexivity].
      replace (idx_v m i + c - idx_v m i) with c by lia. destruct (Nat.eqb_spec i o) as [<-|Hio]; cbn [negb].
      - rewrite andb_false_r. f_equal. unfold l. lia.
      - rewrite andb_true_r. destruct (anc m i o) eqn:A; [|reflexivity]. cbn [negb andb] in B3. apply within_true in B3.
        do 3 f_equal. lia. }
    destruct (0 <? parent m i); apply E; reflexivity.
  - unfold onFcrb, onMinv. cbn [ma setMa setFcrb put MaT_beq]. unfold setBlock. rewrite B1, B2. destruct (Nat.eqb_spec i j) as [<-|Hij]; cbn [andb]; [|reflexivity].
    replace (idx_v m i + c - idx_v m i) with c by lia. destruct (Nat.eqb_spec i o) as [<-|Hio]; [f_equal; unfold l; lia|].
    destruct (anc m i o) eqn:A; [|reflexivity]. elim Hio. now apply leaf_own.
Qed.
Lemma fill_other : anc m i o = false -> fcrb g' 0 l = fcrb g 0 l.
Proof.
  intros A. pose proof (within_subtree m W T Vm NM DF i o a Hi Ho Ha) as A'. fold l in A'. rewrite A in A'.
  unfold g', minvFill. destruct (jm_v m W Vm NM i Hi) as (-> & _ & -> & _). destruct (Z.ltb _ _), (0 <? parent m i); unfold onFcrb, onMinv; cbn [fcrb setFcrb setMa]; rewrite ?putn_same;
    unfold addCols, setCols; rewrite ?A'; reflexivity.
Qed.
Lemma fill_above : anc m i o = true -> 0 < parent m i -> (i = o -> fcrb g 0 l = v6zero) ->
  fcrb g' 0 l = v6add (fcrb g 0 l) (Smul U (fun k => ma g' F_Minv (idx_v m i + k) l)).
Proof.
  intros A Hp Hz. pose proof (within_subtree m W T Vm NM DF i o a Hi Ho Ha) as A'. fold l in A'. rewrite A in A'. pose proof (proj1 (within_true _ _ _) A') as A2.
  revert A2 A'. unfold g', minvFill. destruct (jm_v m W Vm NM i Hi) as (-> & _ & -> & _). intros A2 A'. rewrite nt_lt. 
  destruct (Nat.ltb_spec (nvOf m i) (Z.to_nat (nvSubtree m i))) as [Hn|Hn].
  - destruct (Nat.ltb_spec 0 (parent m i)); [|lia]. unfold onFcrb, onMinv. cbn [fcrb setFcrb setMa ma]. rewrite ?putn_same. unfold addCols. rewrite A'.
    replace (idx_v m i + (l - idx_v m i)) with l by lia. reflexivity.
  - rewrite (Hz (leaf_own i Hi Hn A)), v6add_0_l. unfold onFcrb, onMinv. cbn [fcrb setFcrb setMa ma]. rewrite ?putn_same. unfold setCols. rewrite A'.
    replace (idx_v m i + (l - idx_v m i)) with l by lia. reflexivity.
Qed.
End One.

(* the recursion of the articulated-body algorithm for the torque 1 at l and bodies at rest *)
Variables (cols U : nat -> list V6) (D : nat -> nat -> nat -> R) (P acc : nat -> V6) (u w : nat -> nat -> R).
Hypothesis LC : forall i, 0 < i < m_njoints m -> length (cols i) = nvOf m i.
Hypothesis LU : forall i, 0 < i < m_njoints m -> length (U i) = nvOf m i.
Hypothesis Dsym : forall i, 0 < i < m_njoints m -> symmetricM (nvOf m i) (D i).
Hypothesis HP : forall i x, 0 < i < m_njoints m -> v6dot x (P i) =
  sumN (m_njoints m) (fun c => if childb m i c then v6dot x (v6add (P c) (Smul (colsMul (U c) (D c)) (u c))) else 0%R).
Hypothesis Hu : forall i k, 0 < i < m_njoints m -> k < nvOf m i -> u i k = ((if idx_v m i + k =? l then 1 else 0) - v6dot (nth k (cols i) v6zero) (P i))%R.
Let Du i k := sumN (nvOf m i) (fun b => D i k b * u i b)%R.
Hypothesis Hw : forall i k, 0 < i < m_njoints m -> k < nvOf m i -> w i k = (Du i k - v6dot (nth k (colsMul (U i) (D i)) v6zero) (acc (parent m i)))%R.
Hypothesis Hacc : forall i, 0 < i < m_njoints m -> acc i = v6add (acc (parent m i)) (Smul (cols i) (w i)).
Hypothesis acc0 : acc 0 = v6zero.

Lemma v6_ext x y : (forall z, v6dot z x = v6dot z y) -> x = y.
Proof.
  intros H. destruct x as [[x1 x2 x3] [x4 x5 x6]], y as [[y1 y2 y3] [y4 y5 y6]].
  pose proof (H (mkV6 (mkV3 1 0 0) v3zero)) as E1. pose proof (H (mkV6 (mkV3 0 1 0) v3zero)) as E2. pose proof (H (mkV6 (mkV3 0 0 1) v3zero)) as E3.
  pose proof (H (mkV6 v3zero (mkV3 1 0 0))) as E4. pose proof (H (mkV6 v3zero (mkV3 0 1 0))) as E5. pose proof (H (mkV6 v3zero (mkV3 0 0 1))) as E6.
  unfold v6dot, v3dot in *. cbn [lin ang vx vy vz v3zero] in *. f_equal; f_equal; lra.
Qed.
Lemma unit_own i k : 0 < i < m_njoints m -> k < nvOf m i -> (idx_v m i + k =? l) = (i =? o) && (k =? a).
Proof.
  intros Hi Hk. pose proof (within_own m W NM i o a Hi Ho Ha) as B. fold l in B. destruct (Nat.eqb_spec i o) as [->|Hn]; cbn [andb].
  - unfold l. destruct (Nat.eqb_spec k a), (Nat.eqb_spec (idx_v m o + k) (idx_v m o + a)); try reflexivity; lia.
  - apply within_false in B. destruct (Nat.eqb_spec (idx_v m i + k) l); [lia|reflexivity].
Qed.
Lemma child_eq i c : childb m i c = true -> 0 < c /\ parent m c = i.
Proof. unfold childb. intros E. apply andb_prop in E. destruct E as [E1 E2]. apply Nat.ltb_lt in E1. apply Nat.eqb_eq in E2. auto. Qed.
(* nothing happens outside the support of l *)
Lemma off_support i : 0 < i < m_njoints m -> anc m i o = false -> P i = v6zero /\ forall k, k < nvOf m i -> u i k = 0%R.
Proof.
  remember (m_njoints m - i) as r eqn:Er. revert i Er. induction r as [r IH] using (well_founded_induction lt_wf). intros i Er Hi A.
  assert (EP : P i = v6zero).
  { apply v6_ext. intros z. rewrite (HP i z Hi), v6dot_0_r. apply sumN_zero. intros c Hc. destruct (childb m i c) eqn:E; [|reflexivity].
    destruct (child_eq i c E) as [E1 E2]. pose proof (wf_parent m W c ltac:(lia)) as Hpc.
    destruct (IH (m_njoints m - c) ltac:(lia) c eq_refl ltac:(lia)) as [-> Ec].
    - destruct (anc m c o) eqn:Ac; [|reflexivity]. rewrite <- A. symmetry. apply (anc_trans m W T i c o); [lia | | exact Ac]. rewrite <- E2. apply (anc_parent m W T). lia.
    - rewrite (Smul_ext _ (u c) (fun _ => 0%R)); [now rewrite Smul_0, v6add_0_r, v6dot_0_r|]. intros k Hk. rewrite colsMul_length, LU in Hk by lia. now apply Ec. }
  split; [exact EP|]. intros k Hk. rewrite (Hu i k Hi Hk), (unit_own i k Hi Hk), EP, v6dot_0_r.
  destruct (Nat.eqb_spec i o) as [->|]; cbn [andb]; [|ring]. now rewrite (anc_self m W T) in A by lia.
Qed.
Lemma own_support : P o = v6zero.
Proof.
  apply v6_ext. intros z. rewrite (HP o z Ho), v6dot_0_r. apply sumN_zero. intros c Hc. destruct (childb m o c) eqn:E; [|reflexivity].
  destruct (child_eq o c E) as [E1 E2]. pose proof (wf_parent m W c ltac:(lia)) as Hpc.
  destruct (off_support c ltac:(lia)) as [-> Ec].
  - destruct (anc m c o) eqn:Ac; [|reflexivity]. apply (anc_le m W T) in Ac; lia.
  - rewrite (Smul_ext _ (u c) (fun _ => 0%R)); [now rewrite Smul_0, v6add_0_r, v6dot_0_r|]. intros k Hk. rewrite colsMul_length, LU in Hk by lia. now apply Ec.
Qed.
Lemma up_support i : 0 < i < m_njoints m -> 0 < parent m i -> anc m i o = true -> P (parent m i) = v6add (P i) (Smul (colsMul (U i) (D i)) (u i)).
Proof.
  intros Hi Hp A. pose proof (wf_parent m W i Hi) as Hpi. apply v6_ext. intros z. rewrite HP by lia.
  rewrite <- (sumN_delta (m_njoints m) i (fun c => v6dot z (v6add (P c) (Smul (colsMul (U c) (D c)) (u c))))) by lia.
  apply sumN_ext. intros c Hc. destruct (childb m (parent m i) c) eqn:E.
  - destruct (child_eq _ c E) as [E1 E2]. destruct (Nat.eqb_spec i c) as [<-|Hn]; [reflexivity|].
    destruct (anc m c o) eqn:Ac.
    + exfalso. destruct (anc_comparable m W T i c o ltac:(lia) A Ac) as [X|X].
      * rewrite (anc_step m W T) in X by lia. rewrite E2 in X. destruct (Nat.eqb_spec i c); [congruence|]. apply (anc_le m W T) in X; lia.
      * rewrite (anc_step m W T) in X by lia. rewrite <- E2 in X. destruct (Nat.eqb_spec c i); [congruence|]. apply (anc_le m W T) in X; [|lia]. pose proof (wf_parent m W c ltac:(lia)). lia.
    + destruct (off_support c ltac:(lia) Ac) as [-> Ec]. rewrite (Smul_ext _ (u c) (fun _ => 0%R)); [now rewrite Smul_0, v6add_0_r, v6dot_0_r|].
      intros k Hk. rewrite colsMul_length, LU in Hk by lia. now apply Ec.
  - destruct (Nat.eqb_spec i c) as [<-|Hn]; [|reflexivity]. unfold childb in E. rewrite Nat.eqb_refl in E. destruct (Nat.ltb_spec 0 i); [discriminate|lia].
Qed.
Lemma UD_u i : 0 < i < m_njoints m -> Smul (colsMul (U i) (D i)) (u i) = Smul (U i) (Du i).
Proof.
  intros Hi. apply v6_ext. intros z. rewrite !Smul_dot, colsMul_length, LU by exact Hi.
  rewrite (sumN_ext _ _ (fun k => sumN (nvOf m i) (fun b => u i k * (D i b k * v6dot z (nth b (U i) v6zero))))%R).
  2:{ intros k Hk. rewrite colsMul_nth by now rewrite LU. now rewrite Smul_dot, LU, sumN_scale. }
  rewrite sumN_swap. apply sumN_ext. intros b Hb. unfold Du. rewrite <- sumN_scale_r. apply sumN_ext. intros k Hk. ring.
Qed.
Lemma SD_P i k : 0 < i < m_njoints m -> k < nvOf m i -> i <> o -> (- v6dot (colOf (colsMul (cols i) (D i)) k) (P i) = Du i k)%R.
Proof.
  intros Hi Hk Hn. unfold colOf. rewrite colsMul_nth by now rewrite LC. rewrite v6dot_comm, Smul_dot, LC by exact Hi. unfold Du. rewrite <- Ropp_involutive. f_equal.
  replace (- sumN (nvOf m i) (fun b => D i k b * u i b))%R with (sumN (nvOf m i) (fun b => (-1) * (D i k b * u i b))%R) by (rewrite sumN_scale; ring).
  apply sumN_ext. intros b Hb. rewrite (Hu i b Hi Hb), (unit_own i b Hi Hb), (Dsym i Hi b k Hb Hk), (v6dot_comm (P i)).
  destruct (Nat.eqb_spec i o); [congruence|]. cbn [andb]. ring.
Qed.
Lemma Du_own k : k < nvOf m o -> Du o k = D o k a.
Proof.
  intros Hk. unfold Du. rewrite <- (sumN_pick (nvOf m o) a (fun b => D o k b) Ha). apply sumN_ext. intros b Hb.
  rewrite (Hu o b Ho Hb), (unit_own o b Ho Hb), own_support, v6dot_0_r, Nat.eqb_refl, (Nat.eqb_sym a b). destruct (b =? a); cbn [andb]; ring.
Qed.
Lemma Du_off i k : 0 < i < m_njoints m -> anc m i o = false -> Du i k = 0%R.
Proof. intros Hi A. unfold Du. apply sumN_zero. intros b Hb. rewrite (proj2 (off_support i Hi A) b Hb). ring. Qed.

(* backward pass *)
Lemma fill_pass g : (forall k, k <= l -> ma g F_Minv k l = 0%R) -> fcrb g 0 l = v6zero ->
  let g' := downward m (fun g i => minvFill m i (cols i) (U i) (D i) g) g in
  forall i k, 0 < i < m_njoints m -> k < nvOf m i -> idx_v m i <= l -> ma g' F_Minv (idx_v m i + k) l = Du i k.
Proof.
  intros G0 GF. cbv zeta.
  assert (Z : forall i k, 0 < i < m_njoints m -> k < nvOf m i -> idx_v m i <= l -> i <> o -> idx_v m i + k <= l).
  { intros i k Hi Hk Hl Hn. pose proof (within_own m W NM i o a Hi Ho Ha) as B. fold l in B. destruct (Nat.eqb_spec i o); [congruence|]. apply within_false in B. lia. }
  pose (Inv := fun k g' => (forall i c, 0 < i < m_njoints m -> c < nvOf m i -> idx_v m i <= l -> i <> o \/ k <= i ->
       ma g' F_Minv (idx_v m i + c) l = if k <=? i then Du i c else 0%R) /\
     (forall j, 0 < j < k -> anc m j o = true -> (forall c, j < c < k -> anc m c o = false) -> P j = fcrb g' 0 l)).
  assert (H : Inv 1 (downward m (fun g i => minvFill m i (cols i) (U i) (D i) g) g)).
  { apply downward_inv.
    - apply (wf_n m W).
    - split.
      + intros i c Hi Hc Hl [Hn|Hn]; [|lia]. destruct (Nat.leb_spec (m_njoints m) i); [lia|]. apply G0. now apply Z.
      + intros j Hj Aj Hc. rewrite GF. destruct (Nat.lt_trichotomy j o) as [Hlt|[->|Hgt]].
        * specialize (Hc o ltac:(lia)). rewrite (anc_self m W T) in Hc by lia. discriminate.
        * exact own_support.
        * apply (anc_le m W T) in Aj; lia.
    - intros i s Hi [I1 I2].
      assert (EP : anc m i o = true -> P i = fcrb s 0 l).
      { intros A. apply I2; [lia | exact A | intros; lia]. }
      assert (EM : forall c, c < nvOf m i -> idx_v m i <= l -> ma (minvFill m i (cols i) (U i) (D i) s) F_Minv (idx_v m i + c) l = Du i c).
      { intros c Hc Hl. rewrite (fill_minv i (cols i) (U i) (D i) s Hi i c Hi Hc), Nat.eqb_refl. destruct (Nat.eqb_spec i o) as [->|Hn]; [now rewrite Du_own|].
        destruct (anc m i o) eqn:A; [rewrite <- (EP eq_refl); now apply SD_P|].
        rewrite (I1 i c Hi Hc Hl (or_introl Hn)), (Du_off i c Hi A). destruct (i + 1 <=? i) eqn:E; [apply Nat.leb_le in E; lia|reflexivity]. }
      split.
      + intros j c Hj Hc Hl Ho'. destruct (Nat.eq_dec i j) as [<-|Hn]; [rewrite Nat.leb_refl; now apply EM|].
        rewrite (fill_minv i (cols i) (U i) (D i) s Hi j c Hj Hc). destruct (Nat.eqb_spec i j); [congruence|].
        rewrite (I1 j c Hj Hc Hl) by (destruct Ho'; [now left | right; lia]).
        destruct (Nat.leb_spec i j), (Nat.leb_spec (i + 1) j); try reflexivity; lia.
      + intros j Hj Aj Hc. destruct (anc m i o) eqn:A.
        * assert (j = parent m i /\ 0 < parent m i) as [-> Hp].
          { destruct (anc_comparable m W T i j o ltac:(lia) A Aj) as [X|X]; [apply (anc_le m W T) in X; lia|].
            rewrite (anc_step m W T) in X by lia. destruct (Nat.eqb_spec j i); [lia|]. cbn [orb] in X. pose proof (wf_parent m W i Hi) as Hpi.
            pose proof (anc_le m W T j (parent m i) ltac:(lia) X) as Hle. destruct (Nat.eq_dec j (parent m i)) as [->|Hn]; [lia|]. exfalso.
            specialize (Hc (parent m i) ltac:(lia)). rewrite (anc_trans m W T (parent m i) i o ltac:(lia) (anc_parent m W T i Hi) A) in Hc. discriminate. }
          rewrite (fill_above i (cols i) (U i) (D i) s Hi A Hp); [|intros ->; rewrite <- EP by reflexivity; exact own_support].
          rewrite (up_support i Hi Hp A), (UD_u i Hi), (EP eq_refl). f_equal. apply Smul_ext. intros k Hk. rewrite LU in Hk by exact Hi. symmetry. apply EM; [exact Hk|].
          pose proof (within_subtree m W T Vm NM DF i o a Hi Ho Ha) as A'. rewrite A in A'. apply within_true in A'. fold l in A'. lia.
        * rewrite (fill_other i (cols i) (U i) (D i) s Hi A). apply I2; [lia | exact Aj|]. intros c Hcc. destruct (Nat.eq_dec c i) as [->|]; [exact A | apply Hc; lia]. }
  intros i k Hi Hk Hl. rewrite (proj1 H i k Hi Hk Hl) by (right; lia). destruct (Nat.leb_spec 1 i); [reflexivity|lia].
Qed.

(* forward pass *)
Lemma fwd_pass g : (forall i k, 0 < i < m_njoints m -> k < nvOf m i -> idx_v m i <= l -> ma g F_Minv (idx_v m i + k) l = Du i k) ->
  let g' := upward m (fun g i => minvFwdG m i (cols i) (colsMul (U i) (D i)) g) g in
  forall i k, 0 < i < m_njoints m -> k < nvOf m i -> idx_v m i <= l -> ma g' F_Minv (idx_v m i + k) l = w i k.
Proof.
  intros G0. cbv zeta. assert (Hlv : l < m_nv m) by (unfold l; pose proof (idx_v_bound m W NM o Ho); lia).
  pose (Inv := fun k g' => forall i, 0 < i < m_njoints m -> idx_v m i <= l -> (forall c, c < nvOf m i -> ma g' F_Minv (idx_v m i + c) l = if i <? k then w i c else Du i c) /\
      (i < k -> fcrb g' i l = acc i)).
  assert (H : Inv (m_njoints m) (upward m (fun g i => minvFwdG m i (cols i) (colsMul (U i) (D i)) g) g)).
  { apply upward_inv.
    - apply (wf_n m W).
    - intros i Hi Hl. split; [|lia]. intros c Hc. destruct (Nat.ltb_spec i 1); [lia|]. now apply G0.
    - intros i s Hi I. pose proof (wf_parent m W i Hi) as Hpi.
      assert (EM : forall j c, 0 < j < m_njoints m -> c < nvOf m j -> idx_v m j <= l ->
         ma (minvFwdG m i (cols i) (colsMul (U i) (D i)) s) F_Minv (idx_v m j + c) l = if j <? i + 1 then w j c else Du j c).
      { intros j c Hj Hc Hl. pose proof (proj1 (I j Hj Hl) c Hc) as E.
        pose proof (within_own m W NM i j c Hi Hj Hc) as B.
        assert (R : ma (minvFwdG m i (cols i) (colsMul (U i) (D i)) s) F_Minv (idx_v m j + c) l =
          if (0 <? parent m i) && (i =? j) then (ma s F_Minv (idx_v m j + c) l + - v6dot (colOf (colsMul (U i) (D i)) c) (fcrb s (parent m i) l))%R else ma s F_Minv (idx_v m j + c) l).
        { unfold minvFwdG. destruct (jm_v m W Vm NM i Hi) as (-> & _ & -> & _). destruct (0 <? parent m i); unfold onFcrb, onMinv; cbn [ma setFcrb setMa put MaT_beq]; [|reflexivity].
          unfold addBlock. rewrite B. destruct (Nat.eqb_spec i j) as [<-|]; cbn [andb]; [|reflexivity].
          assert (Wl : within (idx_v m i) (m_nv m - idx_v m i) l = true) by (apply within_true; lia). rewrite Wl.
          replace (idx_v m i + c - idx_v m i) with c by lia. replace (idx_v m i + (l - idx_v m i)) with l by lia. reflexivity. }
        rewrite R, E. destruct (Nat.eqb_spec i j) as [<-|Hn].
        - rewrite andb_true_r. destruct (Nat.ltb_spec i i), (Nat.ltb_spec i (i + 1)); try lia. rewrite (Hw i c Hi Hc). destruct (Nat.ltb_spec 0 (parent m i)).
          + pose proof (idx_v_mono m W NM (parent m i) i ltac:(lia) ltac:(lia) ltac:(lia)) as Hm.
            rewrite (proj2 (I (parent m i) ltac:(lia) ltac:(lia)) ltac:(lia)). unfold colOf. ring.
          + replace (parent m i) with 0 by lia. rewrite acc0, v6dot_0_r. ring.
        - rewrite andb_false_r. destruct (Nat.ltb_spec j i), (Nat.ltb_spec j (i + 1)); try lia; reflexivity. }
      intros j Hj Hl. split; [intros c Hc; now apply EM|]. intros Hji. destruct (Nat.eq_dec j i) as [->|Hn].
      + rewrite (Hacc i Hi).
        assert (Wl : within (idx_v m i) (m_nv m - idx_v m i) l = true) by (apply within_true; lia).
        assert (R : fcrb (minvFwdG m i (cols i) (colsMul (U i) (D i)) s) i l = v6add (Smul (cols i) (fun k => ma (minvFwdG m i (cols i) (colsMul (U i) (D i)) s) F_Minv (idx_v m i + k) l))
            (if 0 <? parent m i then fcrb s (parent m i) l else v6zero)).
        { unfold minvFwdG. destruct (jm_v m W Vm NM i Hi) as (-> & _ & -> & _). destruct (Nat.ltb_spec 0 (parent m i)); unfold onFcrb; cbn [fcrb setFcrb ma onMinv setMa].
          - rewrite !putn_same, !(putn_other _ i (parent m i)) by lia. unfold addCols, setCols. rewrite Wl. replace (idx_v m i + (l - idx_v m i)) with l by lia. reflexivity.
          - rewrite putn_same. unfold setCols. rewrite Wl. replace (idx_v m i + (l - idx_v m i)) with l by lia. now rewrite v6add_0_r. }
        rewrite R. rewrite v6add_comm. f_equal.
        * destruct (Nat.ltb_spec 0 (parent m i)).
          -- pose proof (idx_v_mono m W NM (parent m i) i ltac:(lia) ltac:(lia) ltac:(lia)) as Hm. apply (I (parent m i)); lia.
          -- replace (parent m i) with 0 by lia. now rewrite acc0.
        * apply Smul_ext. intros k Hk. rewrite LC in Hk by exact Hi. rewrite (EM i k Hi Hk Hl). destruct (Nat.ltb_spec i (i + 1)); [reflexivity|lia].
      + rewrite <- (proj2 (I j Hj Hl)) by lia. unfold minvFwdG. destruct (0 <? parent m i); unfold onFcrb; cbn [fcrb setFcrb onMinv setMa]; rewrite !putn_other by lia; reflexivity. }
  intros i k Hi Hk Hl. rewrite (proj1 (H i Hi Hl) k Hk). destruct (Nat.ltb_spec i (m_njoints m)); [reflexivity|lia].
Qed.
End Cols.
