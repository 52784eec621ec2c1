(* The matrix of jacobianSubtreeCenterOfMass. *)
Require Import Reals List Arith ZArith Lia Lra Bool.
From Verif Require Import Vec3 Spatial Inertia InertiaFacts Joints Spec_Joints Deriv JointFacts JointFacts2 Model Spec_Model ModelFacts ModelTree ModelFacts2 Sums Data Kinematics Spec_Kin Spec_Mass KinFacts KinFacts2 KinFacts3 Spec_Dyn Rnea DynFacts DynFacts2 TreeSums MassFacts Crba CrbaFacts CrbaFacts2 Spec_Jac JacFacts JacFacts3 Spec_Com Com ComFacts ComFacts2 ComFacts3 ComFacts4 Jacobian SubCom SubComFacts.
Import ListNotations.
Local Open Scope nat_scope.

Lemma cols3_rescale n (p : nat -> bool) c J w : cols3Mul n (fun k => if p k then v3scale c (J k) else J k) w = cols3Mul n J (fun k => if p k then c * w k else w k)%R.
Proof. induction n as [|n IH]; cbn [cols3Mul]; [reflexivity|]. rewrite IH. f_equal. destruct (p n); [|reflexivity]. generalize (J n) (w n). clear. intros x y. apply v3_ext; cbn; ring. Qed.
Lemma cols3_zero n w : cols3Mul n (fun _ => v3zero) w = v3zero.
Proof. induction n as [|n IH]; cbn [cols3Mul]; [reflexivity|]. rewrite IH. apply v3_ext; cbn; ring. Qed.
Lemma upto_dot m k f e : v3dot e (upto m k f) = sumN (m_njoints m) (fun i => if (k <=? i) && (0 <? i) then v3dot e (f i) else 0%R).
Proof. unfold upto, v3dot. cbn [vx vy vz]. rewrite <- !sumN_scale, <- !sumN_add. apply sumN_ext. intros i Hi. destruct ((k <=? i) && (0 <? i)); ring. Qed.
Lemma upto_scale m k c f : upto m k (fun i => v3scale c (f i)) = v3scale c (upto m k f).
Proof. apply v3_dot_ext. intros e. rewrite v3dot_scale_r, !upto_dot, <- sumN_scale. apply sumN_ext. intros i _. destruct ((k <=? i) && (0 <? i)); [rewrite v3dot_scale_r|]; ring. Qed.
Lemma upto_ext m k f g : (forall i, 0 < i < m_njoints m -> f i = g i) -> upto m k f = upto m k g.
Proof. intros H. apply v3_dot_ext. intros e. rewrite !upto_dot. apply sumN_ext. intros i Hi. destruct (Nat.ltb_spec 0 i); [|rewrite andb_false_r; reflexivity]. rewrite (H i) by lia. reflexivity. Qed.

Section Sub2.
Variable m : Model.
Hypothesis W : wellFormed m.
Hypothesis T : treeInv m.
Hypothesis Vm : validModel m.
Hypothesis NM : noMimic m.
Variables (q : vec) (r : nat).
Hypothesis Hr : r < m_njoints m.
Notation U := (SubComFacts.U m q).

Lemma jcomCol_scale M c k X : jcomCol M c (v6scale k X) = v3scale k (jcomCol M c X).
Proof. destruct X as [[? ? ?] [? ? ?]]. apply v3_ext; cbn; ring. Qed.
Definition slow (w : vec) : vec := fun k => if within (jm_idx_v (joint m r)) (Z.to_nat (nvSubtree m r)) k then (/ subtreeMass m r * w k)%R else w k.
Lemma slow_twist w i : 0 < r -> 0 < i < m_njoints m -> anc m r i = true -> jointTwist m q (slow w) i = v6scale (/ subtreeMass m r) (jointTwist m q w i).
Proof.
  intros H0 Hi Ai. unfold jointTwist. rewrite <- Smul_scal. apply Smul_ext. intros k Hk. rewrite (jS_lenE m W Vm q noVel i Hi), (nvE_nv m W Vm i (NM i Hi) Hi) in Hk.
  unfold shift, slow. destruct (jm_v m W Vm NM r ltac:(lia)) as (-> & _). rewrite (subtree_within m W T Vm NM r i k) by (lia || assumption). reflexivity.
Qed.
Lemma masked_slow w : 0 < r -> upto m 1 (masked m q r (slow w)) = v3scale (/ subtreeMass m r) (upto m 1 (masked m q r w)).
Proof.
  intros H0. rewrite <- upto_scale. apply upto_ext. intros i Hi. unfold masked. destruct (anc m r i) eqn:Ai; [|apply v3_ext; cbn; ring].
  unfold colTerm. rewrite (slow_twist w i H0 Hi Ai), motion_act_scale, jcomCol_scale. reflexivity.
Qed.

(* the joints above the root of the subtree *)
Definition above (c : V3) (w : vec) (p i : nat) : V3 := if anc m i p then jcomCol 1 c (U w i) else v3zero.
Lemma above_step c w p : 0 < p < m_njoints m -> upto m 1 (above c w p) = v3add (jcomCol 1 c (U w p)) (upto m 1 (above c w (parent m p))).
Proof.
  intros Hp. pose proof (wf_parent _ W p Hp) as Hpp. apply v3_dot_ext. intros e. rewrite v3dot_add_r, !upto_dot.
  rewrite <- (sumN_delta (m_njoints m) p (fun i => v3dot e (jcomCol 1 c (U w i)))) by lia. rewrite <- sumN_add. apply sumN_ext. intros i Hi. unfold above.
  rewrite (anc_step m W T i p Hp), (Nat.eqb_sym i p). destruct (Nat.eqb_spec p i) as [<-|].
  - destruct (Nat.leb_spec 1 p), (Nat.ltb_spec 0 p); try lia. cbn [andb orb]. destruct (anc m p (parent m p)) eqn:E; [apply (anc_le m W T) in E; lia|]. unfold v3dot at 3. cbn. ring.
  - cbn [orb]. destruct ((1 <=? i) && (0 <? i)); ring.
Qed.
Lemma above_0 c w : upto m 1 (above c w 0) = v3zero.
Proof.
  apply v3_dot_ext. intros e. rewrite upto_dot. rewrite sumN_zero; [unfold v3dot; cbn; ring|]. intros i Hi. unfold above. rewrite (anc_0 m W T).
  destruct (Nat.eqb_spec i 0) as [->|]; [reflexivity|]. destruct ((1 <=? i) && (0 <? i)); [unfold v3dot; cbn; ring | reflexivity].
Qed.
Lemma up_step s i c : 0 < i < m_njoints m -> pl (rows (fst s) i) F_oMi = worldPl m q i -> jS (jd (rows (fst s) i)) = jS (jointAt m q noVel i) -> p3 (rows (fst s) r) F_com = c ->
  (forall w, cols3Mul (m_nv m) (snd (subUp m r s i)) w = v3add (cols3Mul (m_nv m) (snd s) w) (jcomCol 1 c (U w i))) /\
  rows (fst (subUp m r s i)) = rows (fst s) /\ jcom (gl (fst (subUp m r s i))) = jcom (gl (fst s)).
Proof.
  intros Hi HO HJ EC. split; [|split; reflexivity]. intros w. destruct (wf_joint _ W i Hi) as (_ & _ & E1 & _ & EvE & _ & E4).
  unfold subUp. cbv zeta. cbn [snd]. rewrite E1, E4.
  match goal with |- cols3Mul _ (addCols3 _ _ ?f _) w = _ => assert (Ef : forall k, k < nvEOf m i -> f k = jcomCol 1 c (motion_act (worldPl m q i) (colOf (jS (jointAt m q noVel i)) k))) end.
  { intros k Hk. cbv beta. unfold onCo. cbn [rows setGl gl co setCo]. unfold put. cbn [CoT_beq]. rewrite EC. unfold setCols. destruct (within _ _ _) eqn:Ew.
    - rewrite HO, HJ. replace (jm_idx_vE (joint m i) + k - jm_idx_vE (joint m i)) with k by lia. generalize (motion_act (worldPl m q i) (colOf (jS (jointAt m q noVel i)) k)). clear. intros x. apply v3_ext; cbn; ring.
    - exfalso. assert (within (jm_idx_vE (joint m i)) (nvEOf m i) (jm_idx_vE (joint m i) + k) = true) by (apply within_true; lia). congruence. }
  rewrite cols3_addCols.
  - f_equal. rewrite (cols3_ext _ _ _ _ Ef), jcomCol_cols; [reflexivity|]. symmetry. apply (jS_lenE m W Vm q noVel i Hi).
  - destruct (nvEOf m i) as [|n] eqn:En; [|pose proof (inRange m W Vm i n Hi ltac:(lia)); lia]. destruct (wf_inrange m W i Hi) as [_ Hv]. lia.
Qed.
Lemma ups c fuel : forall p s, p < m_njoints m -> p <= fuel ->
  (forall i, 0 < i < m_njoints m -> pl (rows (fst s) i) F_oMi = worldPl m q i /\ jS (jd (rows (fst s) i)) = jS (jointAt m q noVel i)) -> p3 (rows (fst s) r) F_com = c ->
  (forall w, cols3Mul (m_nv m) (snd (subUps m r fuel p s)) w = v3add (cols3Mul (m_nv m) (snd s) w) (upto m 1 (above c w p))) /\
  rows (fst (subUps m r fuel p s)) = rows (fst s) /\ jcom (gl (fst (subUps m r fuel p s))) = jcom (gl (fst s)).
Proof.
  assert (B : forall s, (forall w, cols3Mul (m_nv m) (snd s) w = v3add (cols3Mul (m_nv m) (snd s) w) (upto m 1 (above c w 0))) /\ rows (fst s) = rows (fst s) /\ jcom (gl (fst s)) = jcom (gl (fst s))).
  { intros s. split; [|split; reflexivity]. intros w. rewrite above_0. generalize (cols3Mul (m_nv m) (snd s) w). clear. intros x. apply v3_ext; cbn; ring. }
  induction fuel as [|fuel IH]; intros p s Hp Hf HI EC; cbn [subUps].
  - assert (p = 0) as -> by lia. apply B.
  - destruct (Nat.ltb_spec 0 p); [|assert (p = 0) as -> by lia; apply B]. pose proof (wf_parent _ W p ltac:(lia)) as Hpp.
    destruct (HI p ltac:(lia)) as [HO HJ]. destruct (up_step s p c ltac:(lia) HO HJ EC) as (A1 & A2 & A3).
    destruct (IH (parent m p) (subUp m r s p) ltac:(lia) ltac:(lia)) as (B1 & B2 & B3); [rewrite A2; exact HI | rewrite A2; exact EC|].
    rewrite B2, B3, A2, A3. split; [|split; reflexivity]. intros w. rewrite B1, A1, (above_step c w p) by lia.
    generalize (cols3Mul (m_nv m) (snd s) w) (jcomCol 1 c (U w p)) (upto m 1 (above c w (parent m p))). clear. intros x y z. apply v3_ext; cbn; ring.
Qed.

(* a joint moves the centre of the bodies b by the sum of what it does to each *)
Lemma jcomCol_bodies j X e : v3dot e (jcomCol (subtreeMass m j) (sumsC m q j) X) = subBodies m j (fun b => mass (inertiaOf m b) * v3dot e (world3 X (bodyCom m q b)))%R.
Proof.
  rewrite jcomCol_dot. unfold subtreeMass, sumsC.
  rewrite (subBodies_ext m j (fun b => mass (inertiaOf m b) * v3dot e (world3 X (bodyCom m q b)))%R
      (fun b => v3dot e (lin X) * mass (inertiaOf m b) + v3dot (v3cross e (ang X)) (v3scale (mass (inertiaOf m b)) (bodyCom m q b)))%R).
  - rewrite subBodies_add, subBodies_scale, <- subBodies3_dot.
    generalize (subBodies3 m j (fun b => v3scale (mass (inertiaOf m b)) (bodyCom m q b))) (subBodies m j (fun b => mass (inertiaOf m b))). clear.
    intros c x. unfold v3dot; cbn; ring.
  - intros b _ _. generalize (bodyCom m q b) (mass (inertiaOf m b)). clear. intros c x. unfold v3dot; cbn; ring.
Qed.
Lemma branch i b : 0 < r -> 0 < i -> b < m_njoints m -> i < m_njoints m ->
  (anc m r b && anc m i b) = ((anc m r i && anc m i b) || (anc m i (parent m r) && anc m r b)) /\ (anc m r i && anc m i b) && (anc m i (parent m r) && anc m r b) = false.
Proof.
  intros H0 Hi Hb Hin. pose proof (wf_parent _ W r ltac:(lia)) as Hp.
  assert (Hx : anc m r i = true -> anc m i (parent m r) = true -> False).
  { intros A B. apply (anc_le m W T) in A; [|lia]. apply (anc_le m W T) in B; [|lia]. lia. }
  assert (Hy : anc m i (parent m r) = true -> anc m i r = true) by (intros A; rewrite (anc_step m W T i r) by lia; rewrite A; apply orb_true_r).
  destruct (anc m r i) eqn:A1, (anc m i b) eqn:A2, (anc m i (parent m r)) eqn:A3, (anc m r b) eqn:A4; cbn [andb orb]; try (split; reflexivity); exfalso; auto.
  - rewrite (anc_trans m W T r i b Hb A1 A2) in A4. discriminate.
  - destruct (anc_comparable m W T r i b Hb A4 A2) as [H|H]; [congruence|]. rewrite (anc_step m W T i r) in H by lia. rewrite A3, orb_false_r in H. apply Nat.eqb_eq in H. subst i.
    rewrite (anc_self m W T) in A1 by lia. discriminate.
  - rewrite (anc_trans m W T i r b Hb (Hy eq_refl) A4) in A2. discriminate.
Qed.
Theorem sub_vel w : 0 < r -> validState m q -> subtreeMass m r <> 0%R ->
  v3add (v3scale (/ subtreeMass m r) (upto m 1 (masked m q r w))) (upto m 1 (above (subtreeCom m q r) w (parent m r))) = subtreeVel m q w r.
Proof.
  intros H0 Hq HM.
  assert (E : upto m 1 (above (subtreeCom m q r) w (parent m r)) = v3scale (/ subtreeMass m r) (upto m 1 (fun i => if anc m i (parent m r) then jcomCol (subtreeMass m r) (sumsC m q r) (U w i) else v3zero))).
  { rewrite <- upto_scale. apply upto_ext. intros i Hi. unfold above. destruct (anc m i (parent m r)); [|apply v3_ext; cbn; ring].
    unfold subtreeCom. fold (sumsC m q r). generalize (sumsC m q r) (U w i). intros c X. apply v3_ext; cbn; field; exact HM. }
  rewrite E. unfold subtreeVel.
  transitivity (v3scale (/ subtreeMass m r) (v3add (upto m 1 (masked m q r w)) (upto m 1 (fun i => if anc m i (parent m r) then jcomCol (subtreeMass m r) (sumsC m q r) (U w i) else v3zero)))).
  { generalize (upto m 1 (masked m q r w)) (upto m 1 (fun i => if anc m i (parent m r) then jcomCol (subtreeMass m r) (sumsC m q r) (U w i) else v3zero)). intros x y. apply v3_ext; cbn; ring. }
  f_equal. apply v3_dot_ext. intros e. rewrite v3dot_add_r, !upto_dot, subBodies3_dot, <- sumN_add.
  set (f := fun i b => (mass (inertiaOf m b) * v3dot e (world3 (U w i) (bodyCom m q b)))%R).
  rewrite (sumN_ext (m_njoints m) _ (fun i => sumN (m_njoints m - 1) (fun b => if (1 <=? i) && (0 <? i) then (if anc m r (S b) && anc m i (S b) then f i (S b) else 0) else 0)%R)).
  - rewrite sumN_swap. unfold subBodies, bodies. apply sumN_ext. intros b Hb. change (inSubtree m r (S b)) with (anc m r (S b)).
    destruct (anc m r (S b)); cbn [andb]; [|apply sumN_zero; intros i _; destruct ((1 <=? i) && (0 <? i)); reflexivity].
    rewrite v3dot_scale_r, <- (world_com m W T Vm q w (S b) Hq ltac:(lia)), <- (point_contrib m W T Vm q w _ e (S b) Hq ltac:(lia)), <- sumN_scale.
    apply sumN_ext. intros i Hi. unfold f. fold (U w i). destruct ((1 <=? i) && (0 <? i)), (anc m i (S b)); ring.
  - intros i Hi. destruct (Nat.leb_spec 1 i), (Nat.ltb_spec 0 i); try lia; cbn [andb]; [|rewrite sumN_0; ring].
    assert (E1 : v3dot e (masked m q r w i) = sumN (m_njoints m - 1) (fun b => if anc m r i && anc m i (S b) then f i (S b) else 0%R)).
    { unfold masked. destruct (anc m r i); cbn [andb]; [|rewrite sumN_0; unfold v3dot; cbn; ring]. unfold colTerm. fold (sumsC m q i). rewrite jcomCol_bodies. reflexivity. }
    assert (E2 : v3dot e (if anc m i (parent m r) then jcomCol (subtreeMass m r) (sumsC m q r) (U w i) else v3zero) = sumN (m_njoints m - 1) (fun b => if anc m i (parent m r) && anc m r (S b) then f i (S b) else 0%R)).
    { destruct (anc m i (parent m r)); cbn [andb]; [|rewrite sumN_0; unfold v3dot; cbn; ring]. rewrite jcomCol_bodies. reflexivity. }
    rewrite E1, E2, <- sumN_add. apply sumN_ext. intros b Hb. destruct (branch i (S b) H0 ltac:(lia) ltac:(lia) Hi) as [-> E3].
    destruct (anc m r i && anc m i (S b)), (anc m i (parent m r) && anc m r (S b)); cbn [andb orb] in *; try discriminate; ring.
Qed.
End Sub2.
