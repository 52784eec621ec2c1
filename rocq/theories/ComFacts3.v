(* Centre of mass, its velocity and acceleration. *)
Require Import Reals List Arith ZArith Lia Lra Bool.
From Verif Require Import Vec3 Spatial Inertia InertiaFacts Joints Spec_Joints Deriv JointFacts JointFacts2 Model Spec_Model ModelFacts ModelTree ModelFacts2 Sums Data Kinematics Spec_Kin Spec_Mass KinFacts KinFacts2 KinFacts3 Spec_Dyn Rnea DynFacts DynFacts2 TreeSums MassFacts Crba CrbaFacts Spec_Com Com ComFacts ComFacts2.
Import ListNotations.
Local Open Scope nat_scope.

Lemma v3_dot_ext a b : (forall e, v3dot e a = v3dot e b) -> a = b.
Proof.
  intros H. pose proof (H (mkV3 1 0 0)) as H1. pose proof (H (mkV3 0 1 0)) as H2. pose proof (H (mkV3 0 0 1)) as H3.
  unfold v3dot in *. cbn in *. apply v3_ext; lra.
Qed.
Lemma v3dot_add_r e a b : v3dot e (v3add a b) = (v3dot e a + v3dot e b)%R.
Proof. unfold v3dot, v3add; cbn; ring. Qed.
Lemma v3dot_scale_r e c a : v3dot e (v3scale c a) = (c * v3dot e a)%R.
Proof. unfold v3dot, v3scale; cbn; ring. Qed.
Lemma v3div_scale s x : v3div s x = v3scale (/ s) x.
Proof. unfold v3div, v3scale. f_equal; unfold Rdiv; ring. Qed.
Lemma m3vec_scale A c x : m3vec A (v3scale c x) = v3scale c (m3vec A x).
Proof. apply v3_ext; cbn; ring. Qed.
Lemma onRow_at d i f j : rows (onRow d i f) j = if i =? j then f (rows d i) else rows d j.
Proof. unfold onRow, setRow, putn. cbn [rows]. destruct (Nat.eqb_spec i j) as [<-|]; reflexivity. Qed.

Section Sub.
Variable m : Model.
Hypothesis W : wellFormed m.
Hypothesis T : treeInv m.
Lemma subBodies_subSum r f : f 0 = 0%R -> subBodies m r f = subSum m r f.
Proof.
  intros H0. unfold subBodies. rewrite (bodies_all m W); [reflexivity|]. destruct (inSubtree m r 0); auto.
Qed.
Lemma subBodies_ext r f g : (forall b, 0 < b < m_njoints m -> inSubtree m r b = true -> f b = g b) -> subBodies m r f = subBodies m r g.
Proof. intros H. unfold subBodies, bodies. apply sumN_ext. intros k Hk. destruct (inSubtree m r (S k)) eqn:E; [apply H; [lia|exact E] | reflexivity]. Qed.
Lemma subBodies_add r f g : subBodies m r (fun b => f b + g b)%R = (subBodies m r f + subBodies m r g)%R.
Proof. unfold subBodies, bodies. rewrite <- sumN_add. apply sumN_ext. intros. destruct (inSubtree m r (S k)); ring. Qed.
Lemma subBodies_scale r c f : subBodies m r (fun b => c * f b)%R = (c * subBodies m r f)%R.
Proof. unfold subBodies, bodies. rewrite <- sumN_scale. apply sumN_ext. intros. destruct (inSubtree m r (S k)); ring. Qed.
Lemma subBodies3_dot r f e : v3dot e (subBodies3 m r f) = subBodies m r (fun b => v3dot e (f b)).
Proof.
  unfold subBodies3. unfold v3dot at 1. cbn [vx vy vz]. rewrite <- !subBodies_scale, <- !subBodies_add. reflexivity.
Qed.
Lemma subBodies_root f : subBodies m 0 f = bodies m f.
Proof.
  unfold subBodies, bodies. apply sumN_ext. intros k Hk. change (inSubtree m 0 (S k)) with (anc m 0 (S k)). rewrite (anc_root m W T) by lia. reflexivity.
Qed.
Lemma deriv_subBodies r (f : R -> nat -> R) f' t : (forall b, 0 < b < m_njoints m -> deriv (fun s => f s b) (f' b) t) ->
  deriv (fun s => subBodies m r (f s)) (subBodies m r f') t.
Proof.
  intros H. unfold subBodies, bodies. apply (deriv_sumN _ (fun k s => if inSubtree m r (S k) then f s (S k) else 0%R)).
  intros k Hk. destruct (inSubtree m r (S k)); [apply H; lia | apply deriv_const].
Qed.
Lemma deriv_subBodies3 r (f : R -> nat -> V3) f' t : (forall b, 0 < b < m_njoints m -> deriv3 (fun s => f s b) (f' b) t) ->
  deriv3 (fun s => subBodies3 m r (f s)) (subBodies3 m r f') t.
Proof.
  intros H. unfold subBodies3. repeat split; cbn [vx vy vz]; 
    [apply (deriv_subBodies r (fun s b => vx (f s b))) | apply (deriv_subBodies r (fun s b => vy (f s b))) | apply (deriv_subBodies r (fun s b => vz (f s b)))];
    intros b Hb; apply (H b Hb).
Qed.
Lemma subBodies3_ext r f g : (forall b, 0 < b < m_njoints m -> f b = g b) -> subBodies3 m r f = subBodies3 m r g.
Proof. intros H. unfold subBodies3. f_equal; apply subBodies_ext; intros b Hb _; now rewrite H. Qed.
Lemma subBodies3_add r f g : subBodies3 m r (fun b => v3add (f b) (g b)) = v3add (subBodies3 m r f) (subBodies3 m r g).
Proof. apply v3_dot_ext. intros e. rewrite v3dot_add_r, !subBodies3_dot, <- subBodies_add. apply subBodies_ext. intros. apply v3dot_add_r. Qed.
Lemma subBodies3_scale r c f : subBodies3 m r (fun b => v3scale c (f b)) = v3scale c (subBodies3 m r f).
Proof. apply v3_dot_ext. intros e. rewrite v3dot_scale_r, !subBodies3_dot, <- subBodies_scale. apply subBodies_ext. intros. apply v3dot_scale_r. Qed.

(* ---- masses ---- *)
Lemma total_mass : computeTotalMass m = subtreeMass m 0.
Proof.
  unfold computeTotalMass, subtreeMass. rewrite subBodies_root. unfold bodies.
  apply (upward_inv m (fun x i => x + mass (inertiaOf m i))%R (fun k x => x = sumN (k - 1) (fun k => mass (inertiaOf m (S k))))); [apply (wf_n _ W) | reflexivity |].
  intros i s Hi ->. replace (i + 1 - 1) with (S (i - 1)) by lia. cbn [sumN]. now replace (S (i - 1)) with i by lia.
Qed.
Lemma subtree_masses d j : j < m_njoints m -> sc (rows (computeSubtreeMasses m d) j) F_mass = subtreeMass m j.
Proof.
  intros Hj. unfold computeSubtreeMasses.
  set (d1 := onRow d 0 _).
  set (d2 := upward m _ d1).
  assert (E2 : forall i, i < m_njoints m -> sc (rows d2 i) F_mass = if 0 <? i then mass (inertiaOf m i) else 0%R).
  { intros i Hi. destruct (upward_rows m (fun i r _ => setSc r F_mass (mass (inertiaOf m i))) d1 W) as (_ & H0 & H).
    change (upward m (rowStep m _) d1) with d2 in H0, H. destruct (Nat.ltb_spec 0 i).
    - rewrite H by lia. reflexivity.
    - replace i with 0 by lia. rewrite H0. reflexivity. }
  clearbody d2. clear d1.
  set (d3 := downward m _ d2).
  assert (A : accInv m (fun (s : Data) j => sc (rows s j) F_mass) d2 true 1 d3).
  { unfold d3. apply downward_inv; [apply (wf_n _ W) | apply accInv_start |].
    intros i s Hi HI. apply (accInv_step m W (fun (s : Data) j => sc (rows s j) F_mass) d2 true i s _ Hi HI).
    intros k Hk _. rewrite onRow_at. destruct (parent m i =? k) eqn:E; [|ring]. apply Nat.eqb_eq in E. subst k. unfold addMass. mem. reflexivity. }
  rewrite (acc_complete m W T _ _ _ _ _ A j Hj eq_refl ltac:(lia)). unfold subtreeMass.
  rewrite <- subBodies_subSum; [|rewrite E2 by apply (wf_n _ W); reflexivity].
  apply subBodies_ext. intros b Hb _. rewrite E2 by lia. destruct (Nat.ltb_spec 0 b); [reflexivity|lia].
Qed.
End Sub.

Section CoM.
Variable m : Model.
Hypothesis W : wellFormed m.
Hypothesis T : treeInv m.
Hypothesis Vm : validModel m.

(* velocity and acceleration of the centre of mass of a body, in the world *)
Definition comVel (q v : vec) (b : nat) : V3 :=
  m3vec (rot (worldPl m q b)) (v3add (lin (bodyVel m q v b)) (v3cross (ang (bodyVel m q v b)) (lever (inertiaOf m b)))).
Definition comAcc (q v a : vec) (b : nat) : V3 :=
  m3vec (rot (worldPl m q b)) (v3add (v3add (lin (bodyAcc m q v a b)) (v3cross (ang (bodyAcc m q v a b)) (lever (inertiaOf m b))))
    (v3cross (ang (bodyVel m q v b)) (v3add (lin (bodyVel m q v b)) (v3cross (ang (bodyVel m q v b)) (lever (inertiaOf m b)))))).
Definition subtreeVel q v r := v3scale (/ subtreeMass m r) (subBodies3 m r (fun b => v3scale (mass (inertiaOf m b)) (comVel q v b))).
Definition subtreeAcc q v a r := v3scale (/ subtreeMass m r) (subBodies3 m r (fun b => v3scale (mass (inertiaOf m b)) (comAcc q v a b))).

Lemma subtreeCom_deriv (q : R -> vec) v t r : validState m (q t) -> moves m q v t -> deriv3 (fun s => subtreeCom m (q s) r) (subtreeVel (q t) v r) t.
Proof.
  intros Hq Hm. unfold subtreeCom, subtreeVel. eapply deriv3_eq.
  - apply deriv3_scale; [apply deriv_const|]. apply (deriv_subBodies3 m r (fun s b => v3scale (mass (inertiaOf m b)) (bodyCom m (q s) b)) (fun b => v3scale (mass (inertiaOf m b)) (comVel (q t) v b))).
    intros b Hb. eapply deriv3_eq; [apply deriv3_scale; [apply deriv_const|]; unfold bodyCom; apply (point_vel (fun s => worldPl m (q s) b)), (worldPl_twist m W T Vm); [exact Hq | exact Hm | lia]|].
    fold (comVel (q t) v b). apply v3_ext; cbn; ring.
  - apply v3_ext; cbn; ring.
Qed.
Lemma subtreeVel_deriv (q v : R -> vec) a t r : (forall s, validState m (q s)) -> moves m q (v t) t -> accelerates m v a t ->
  deriv3 (fun s => subtreeVel (q s) (v s) r) (subtreeAcc (q t) (v t) a r) t.
Proof.
  intros Hq Hm Ha. unfold subtreeVel, subtreeAcc. eapply deriv3_eq.
  - apply deriv3_scale; [apply deriv_const|]. apply (deriv_subBodies3 m r (fun s b => v3scale (mass (inertiaOf m b)) (comVel (q s) (v s) b)) (fun b => v3scale (mass (inertiaOf m b)) (comAcc (q t) (v t) a b))).
    intros b Hb. eapply deriv3_eq; [apply deriv3_scale; [apply deriv_const|]; unfold comVel; apply (point_acc (fun s => worldPl m (q s) b) (fun s => bodyVel m (q s) (v s) b)); [apply (worldPl_twist m W T Vm); [apply Hq | exact Hm | lia] | apply (bodyAcc_deriv m W T Vm (inRange m W Vm)); [exact Hq | exact Hm | exact Ha | lia]]|].
    fold (comAcc (q t) (v t) a b). apply v3_ext; cbn; ring.
  - apply v3_ext; cbn; ring.
Qed.

Lemma acc_body q v a d : validState m q -> mo (rows d 0) F_v = v6zero -> velEq m q v d -> mo (rows d 0) F_a = v6zero -> accEq m q v a d ->
  forall i, i < m_njoints m -> mo (rows d i) F_a = bodyAcc m q v a i.
Proof.
  intros Hq V0 HV A0 HA. pose proof (vel_body m W T Vm q v d Hq V0 HV) as HB. refine (tree_ind m _ W _ _).
  - now rewrite A0, (bodyAcc_0 m W T).
  - intros i Hi IH. rewrite (HA i Hi), IH, (HB i ltac:(lia)), (bodyAcc_step m W T Vm q v a i Hq Hi). f_equal.
    unfold jointAcc. rewrite (jv_twist m Vm q v i Hi), (jointAt_S m q v noVel i). reflexivity.
Qed.

(* ---- the passes ---- *)
Definition comStart lvl d := upward m (comForward lvl m) (onRow d 0 (comZero lvl)).
Definition comRow lvl i (r : Row) : Row :=
  let Y := inertiaOf m i in let v := mo r F_v in let a := mo r F_a in
  let r := setSc r F_mass (mass Y) in
  let r := setP3 r F_com (v3scale (mass Y) (lever Y)) in
  let r := if 1 <=? lvl then setP3 r F_vcom (v3scale (mass Y) (v3add (v3cross (ang v) (lever Y)) (lin v))) else r in
  if 2 <=? lvl then setP3 r F_acom (v3add (v3scale (mass Y) (v3add (v3cross (ang a) (lever Y)) (lin a))) (v3cross (ang v) (p3 r F_vcom))) else r.
Lemma comStart_rows lvl d : rows (comStart lvl d) 0 = comZero lvl (rows d 0) /\ forall i, 0 < i < m_njoints m -> rows (comStart lvl d) i = comRow lvl i (rows d i).
Proof.
  destruct (upward_rows m (fun i r _ => comRow lvl i r) (onRow d 0 (comZero lvl)) W) as (_ & H0 & H).
  change (upward m (rowStep m _) (onRow d 0 (comZero lvl))) with (comStart lvl d) in H0, H. split.
  - rewrite H0. reflexivity.
  - intros i Hi. rewrite H, onRow_at by exact Hi. destruct (Nat.eqb_spec 0 i); [lia | reflexivity].
Qed.

Definition phiM (s : Data) j := sc (rows s j) F_mass.
Definition phiC (q : vec) e (s : Data) j := v3dot e (v3add (m3vec (rot (worldPl m q j)) (p3 (rows s j) F_com)) (v3scale (sc (rows s j) F_mass) (trans (worldPl m q j)))).
Definition phiV (q : vec) tg e (s : Data) j := v3dot e (m3vec (rot (worldPl m q j)) (p3 (rows s j) tg)).

Lemma comAdd_mass lvl r ri : sc (comAdd lvl r ri) F_mass = (sc r F_mass + sc ri F_mass)%R.
Proof. unfold comAdd, addMass. destruct (1 <=? lvl), (2 <=? lvl); mem; reflexivity. Qed.
Lemma comAdd_com lvl r ri : p3 (comAdd lvl r ri) F_com = v3add (p3 r F_com) (v3add (m3vec (rot (pl ri F_liMi)) (p3 ri F_com)) (v3scale (sc ri F_mass) (trans (pl ri F_liMi)))).
Proof. unfold comAdd, addMass. destruct (1 <=? lvl), (2 <=? lvl); mem; reflexivity. Qed.
Lemma comAdd_vcom lvl r ri : 1 <= lvl -> p3 (comAdd lvl r ri) F_vcom = v3add (p3 r F_vcom) (m3vec (rot (pl ri F_liMi)) (p3 ri F_vcom)).
Proof. intros H. unfold comAdd, addMass. destruct (Nat.leb_spec 1 lvl); [|lia]. destruct (2 <=? lvl); mem; reflexivity. Qed.
Lemma comAdd_acom lvl r ri : 2 <= lvl -> p3 (comAdd lvl r ri) F_acom = v3add (p3 r F_acom) (m3vec (rot (pl ri F_liMi)) (p3 ri F_acom)).
Proof. intros H. unfold comAdd, addMass. destruct (Nat.leb_spec 2 lvl); [|lia]. destruct (1 <=? lvl); mem; reflexivity. Qed.
Lemma comAdd_pl lvl r ri tg : pl (comAdd lvl r ri) tg = pl r tg.
Proof. unfold comAdd, addMass. destruct (1 <=? lvl), (2 <=? lvl); mem; reflexivity. Qed.
Lemma comRow_pl lvl i r tg : pl (comRow lvl i r) tg = pl r tg.
Proof. unfold comRow. destruct (1 <=? lvl), (2 <=? lvl); mem; reflexivity. Qed.
Lemma comDiv_pl lvl r tg : pl (comDiv lvl r) tg = pl r tg.
Proof. unfold comDiv. destruct (1 <=? lvl), (2 <=? lvl); mem; reflexivity. Qed.
Lemma comDiv_mass lvl r : sc (comDiv lvl r) F_mass = sc r F_mass.
Proof. unfold comDiv. destruct (1 <=? lvl), (2 <=? lvl); mem; reflexivity. Qed.
Lemma comDiv_com lvl r : p3 (comDiv lvl r) F_com = v3scale (/ sc r F_mass) (p3 r F_com).
Proof. rewrite <- v3div_scale. unfold comDiv. destruct (1 <=? lvl), (2 <=? lvl); mem; reflexivity. Qed.
Lemma comDiv_vcom lvl r : 1 <= lvl -> p3 (comDiv lvl r) F_vcom = v3scale (/ sc r F_mass) (p3 r F_vcom).
Proof. rewrite <- v3div_scale. intros H. unfold comDiv. destruct (Nat.leb_spec 1 lvl); [|lia]. destruct (2 <=? lvl); mem; reflexivity. Qed.
Lemma comDiv_acom lvl r : 2 <= lvl -> p3 (comDiv lvl r) F_acom = v3scale (/ sc r F_mass) (p3 r F_acom).
Proof. rewrite <- v3div_scale. intros H. unfold comDiv. destruct (Nat.leb_spec 2 lvl); [|lia]. destruct (1 <=? lvl); mem; reflexivity. Qed.

(* what the backward pass leaves, before any division *)
Lemma comBack_all lvl q d s0 : (forall i, 0 < i < m_njoints m -> pl (rows s0 i) F_liMi = relPl m q i) -> d = downward m (comBack lvl false m) s0 ->
  forall j, j < m_njoints m -> 
  phiM d j = subSum m j (phiM s0) /\ (forall e, phiC q e d j = subSum m j (phiC q e s0)) /\
  (1 <= lvl -> forall e, phiV q F_vcom e d j = subSum m j (phiV q F_vcom e s0)) /\ (2 <= lvl -> forall e, phiV q F_acom e d j = subSum m j (phiV q F_acom e s0)).
Proof.
  intros HP ->.
  pose (Inv := fun k (s : Data) => (forall i, 0 < i < m_njoints m -> pl (rows s i) F_liMi = relPl m q i) /\
    accInv m phiM s0 true k s /\ (forall e, accInv m (phiC q e) s0 true k s) /\
    (1 <= lvl -> forall e, accInv m (phiV q F_vcom e) s0 true k s) /\ (2 <= lvl -> forall e, accInv m (phiV q F_acom e) s0 true k s)).
  assert (H : Inv 1 (downward m (comBack lvl false m) s0)).
  { apply downward_inv; [apply (wf_n _ W) | |].
    - split; [exact HP|]. repeat split; intros; apply accInv_start.
    - intros i s Hi (I0 & I1 & I2 & I3 & I4). pose proof (wf_parent _ W i Hi) as Hp.
      assert (ER : forall k, rows (comBack lvl false m s i) k = if parent m i =? k then comAdd lvl (rows s k) (rows s i) else rows s k).
      { intros k. unfold comBack. rewrite onRow_at. destruct (Nat.eqb_spec (parent m i) k) as [<-|]; reflexivity. }
      assert (EW : worldPl m q i = se3_mul (worldPl m q (parent m i)) (relPl m q i)) by (apply (worldPl_step m W T); exact Hi).
      assert (EL := I0 i Hi).
      split; [|split; [|split; [|split]]].
      + intros k Hk. rewrite ER. destruct (parent m i =? k); [rewrite comAdd_pl|]; apply I0, Hk.
      + apply (accInv_step m W _ _ _ _ _ _ Hi I1). intros k Hk _. unfold phiM. rewrite ER. destruct (parent m i =? k); [apply comAdd_mass | ring].
      + intros e. apply (accInv_step m W _ _ _ _ _ _ Hi (I2 e)). intros k Hk _. unfold phiC. rewrite ER.
        destruct (Nat.eqb_spec (parent m i) k) as [<-|]; [|ring]. rewrite comAdd_mass, comAdd_com, EL, EW.
        generalize (worldPl m q (parent m i)) (relPl m q i) (p3 (rows s i) F_com) (p3 (rows s (parent m i)) F_com) (sc (rows s i) F_mass) (sc (rows s (parent m i)) F_mass). clear.
        intros A B c c' x x'. unfold v3dot. cbn. ring.
      + intros Hl e. apply (accInv_step m W _ _ _ _ _ _ Hi (I3 Hl e)). intros k Hk _. unfold phiV. rewrite ER.
        destruct (Nat.eqb_spec (parent m i) k) as [<-|]; [|ring]. rewrite comAdd_vcom, EL, EW by exact Hl.
        generalize (worldPl m q (parent m i)) (relPl m q i) (p3 (rows s i) F_vcom) (p3 (rows s (parent m i)) F_vcom). clear.
        intros A B c c'. unfold v3dot. cbn. ring.
      + intros Hl e. apply (accInv_step m W _ _ _ _ _ _ Hi (I4 Hl e)). intros k Hk _. unfold phiV. rewrite ER.
        destruct (Nat.eqb_spec (parent m i) k) as [<-|]; [|ring]. rewrite comAdd_acom, EL, EW by exact Hl.
        generalize (worldPl m q (parent m i)) (relPl m q i) (p3 (rows s i) F_acom) (p3 (rows s (parent m i)) F_acom). clear.
        intros A B c c'. unfold v3dot. cbn. ring. }
  destruct H as (_ & I1 & I2 & I3 & I4). intros j Hj. 
  split; [|split; [|split]].
  - apply (acc_complete m W T _ _ _ _ _ I1 j Hj eq_refl); lia.
  - intros e. apply (acc_complete m W T _ _ _ _ _ (I2 e) j Hj eq_refl); lia.
  - intros Hl e. apply (acc_complete m W T _ _ _ _ _ (I3 Hl e) j Hj eq_refl); lia.
  - intros Hl e. apply (acc_complete m W T _ _ _ _ _ (I4 Hl e) j Hj eq_refl); lia.
Qed.
(* with the optional division of the subtree rows *)
Lemma comBack_sub lvl s0 : forall j, j < m_njoints m -> 0 < j ->
  rows (downward m (comBack lvl true m) s0) j = comDiv lvl (rows (downward m (comBack lvl false m) s0) j) /\
  rows (downward m (comBack lvl true m) s0) 0 = rows (downward m (comBack lvl false m) s0) 0.
Proof.
  pose (Rel := fun k (s t : Data) => forall j, j < m_njoints m -> rows s j = if k <=? j then comDiv lvl (rows t j) else rows t j).
  assert (H : Rel 1 (downward m (comBack lvl true m) s0) (downward m (comBack lvl false m) s0)).
  { apply downward_rel; [apply (wf_n _ W) | |].
    - intros j Hj. destruct (Nat.leb_spec (m_njoints m) j); [lia | reflexivity].
    - intros i s t Hi HI j Hj. pose proof (wf_parent _ W i Hi) as Hp. unfold comBack. rewrite !onRow_at.
      assert (Ei : rows s i = rows t i) by (rewrite (HI i ltac:(lia)); destruct (Nat.leb_spec (i + 1) i); [lia | reflexivity]).
      assert (Ep : rows s (parent m i) = rows t (parent m i)) by (rewrite (HI (parent m i) ltac:(lia)); destruct (Nat.leb_spec (i + 1) (parent m i)); [lia | reflexivity]).
      rewrite Ei, Ep. destruct (Nat.eqb_spec i j) as [<-|Hn].
      + destruct (Nat.eqb_spec (parent m i) i); [lia|]. destruct (Nat.leb_spec i i); [reflexivity | lia].
      + destruct (Nat.eqb_spec (parent m i) j) as [<-|].
        * destruct (Nat.leb_spec i (parent m i)); [lia | reflexivity].
        * rewrite (HI j Hj). destruct (Nat.leb_spec (i + 1) j), (Nat.leb_spec i j); try lia; reflexivity. }
  intros j Hj Hj0. split; [rewrite (H j Hj); destruct (Nat.leb_spec 1 j); [reflexivity|lia] | exact (H 0 ltac:(lia))].
Qed.
Lemma comZero_row lvl r : sc (comZero lvl r) F_mass = 0%R /\ p3 (comZero lvl r) F_com = v3zero /\
  (1 <= lvl -> p3 (comZero lvl r) F_vcom = v3zero) /\ (2 <= lvl -> p3 (comZero lvl r) F_acom = v3zero).
Proof.
  unfold comZero. destruct (Nat.leb_spec 1 lvl), (Nat.leb_spec 2 lvl); mem; repeat split; intros; try lia; reflexivity.
Qed.
Lemma comRow_row lvl i r : sc (comRow lvl i r) F_mass = mass (inertiaOf m i) /\ p3 (comRow lvl i r) F_com = v3scale (mass (inertiaOf m i)) (lever (inertiaOf m i)) /\
  (1 <= lvl -> p3 (comRow lvl i r) F_vcom = v3scale (mass (inertiaOf m i)) (v3add (v3cross (ang (mo r F_v)) (lever (inertiaOf m i))) (lin (mo r F_v)))) /\
  (2 <= lvl -> p3 (comRow lvl i r) F_acom = v3add (v3scale (mass (inertiaOf m i)) (v3add (v3cross (ang (mo r F_a)) (lever (inertiaOf m i))) (lin (mo r F_a))))
     (v3cross (ang (mo r F_v)) (v3scale (mass (inertiaOf m i)) (v3add (v3cross (ang (mo r F_v)) (lever (inertiaOf m i))) (lin (mo r F_v)))))).
Proof.
  unfold comRow. destruct (Nat.leb_spec 1 lvl), (Nat.leb_spec 2 lvl); mem; repeat split; intros; try lia; reflexivity.
Qed.

(* the undivided result *)
Lemma com_sums lvl q d : placed m q d -> forall j, j < m_njoints m ->
  let t := downward m (comBack lvl false m) (comStart lvl d) in
  sc (rows t j) F_mass = subtreeMass m j /\
  v3add (m3vec (rot (worldPl m q j)) (p3 (rows t j) F_com)) (v3scale (sc (rows t j) F_mass) (trans (worldPl m q j))) = subBodies3 m j (fun b => v3scale (mass (inertiaOf m b)) (bodyCom m q b)) /\
  (1 <= lvl -> forall v, (forall i, 0 < i < m_njoints m -> mo (rows d i) F_v = bodyVel m q v i) ->
     m3vec (rot (worldPl m q j)) (p3 (rows t j) F_vcom) = subBodies3 m j (fun b => v3scale (mass (inertiaOf m b)) (comVel q v b))) /\
  (2 <= lvl -> forall v a, (forall i, 0 < i < m_njoints m -> mo (rows d i) F_v = bodyVel m q v i /\ mo (rows d i) F_a = bodyAcc m q v a i) ->
     m3vec (rot (worldPl m q j)) (p3 (rows t j) F_acom) = subBodies3 m j (fun b => v3scale (mass (inertiaOf m b)) (comAcc q v a b))).
Proof.
  intros HP j Hj. cbv zeta. destruct (comStart_rows lvl d) as [R0 R1]. set (s0 := comStart lvl d) in *. clearbody s0.
  set (t := downward m (comBack lvl false m) s0).
  assert (HL : forall i, 0 < i < m_njoints m -> pl (rows s0 i) F_liMi = relPl m q i) by (intros i Hi; rewrite (R1 i Hi), comRow_pl; apply (HP i Hi)).
  destruct (comBack_all lvl q t s0 HL eq_refl j Hj) as (A1 & A2 & A3 & A4).
  destruct (comZero_row lvl (rows d 0)) as (Z1 & Z2 & Z3 & Z4).
  pose proof (worldPl_0 m W T q) as P0.
  split; [|split; [|split]].
  - change (phiM t j = subtreeMass m j). rewrite A1, <- (subBodies_subSum m W); [|unfold phiM; rewrite R0; exact Z1].
    apply subBodies_ext. intros b Hb _. unfold phiM. rewrite (R1 b Hb). apply comRow_row.
  - apply v3_dot_ext. intros e. change (phiC q e t j = v3dot e (subBodies3 m j (fun b => v3scale (mass (inertiaOf m b)) (bodyCom m q b)))).
    rewrite A2, subBodies3_dot, <- (subBodies_subSum m W).
    + apply subBodies_ext. intros b Hb _. unfold phiC. rewrite (R1 b Hb). destruct (comRow_row lvl b (rows d b)) as (-> & -> & _).
      unfold bodyCom. generalize (worldPl m q b) (inertiaOf m b). clear. intros M Y. unfold v3dot; cbn; ring.
    + unfold phiC. rewrite R0, Z1, Z2. unfold v3dot; cbn; ring.
  - intros Hl v Hv. apply v3_dot_ext. intros e. change (phiV q F_vcom e t j = v3dot e (subBodies3 m j (fun b => v3scale (mass (inertiaOf m b)) (comVel q v b)))).
    rewrite (A3 Hl), subBodies3_dot, <- (subBodies_subSum m W).
    + apply subBodies_ext. intros b Hb _. unfold phiV. rewrite (R1 b Hb). destruct (comRow_row lvl b (rows d b)) as (_ & _ & H & _).
      rewrite (H Hl), (Hv b Hb). unfold comVel. rewrite m3vec_scale, v3add_comm. reflexivity.
    + unfold phiV. rewrite R0, (Z3 Hl). unfold v3dot; cbn; ring.
  - intros Hl v a Hv. apply v3_dot_ext. intros e. change (phiV q F_acom e t j = v3dot e (subBodies3 m j (fun b => v3scale (mass (inertiaOf m b)) (comAcc q v a b)))).
    rewrite (A4 Hl), subBodies3_dot, <- (subBodies_subSum m W).
    + apply subBodies_ext. intros b Hb _. unfold phiV. rewrite (R1 b Hb). destruct (comRow_row lvl b (rows d b)) as (_ & _ & _ & H).
      destruct (Hv b Hb) as [-> ->] || (rewrite (H Hl); destruct (Hv b Hb) as [-> ->]). unfold comAcc. f_equal.
      rewrite <- m3vec_scale. f_equal.
      generalize (bodyVel m q v b) (bodyAcc m q v a b) (lever (inertiaOf m b)) (mass (inertiaOf m b)). clear. intros V A c x. apply v3_ext; cbn; ring.
    + unfold phiV. rewrite R0, (Z4 Hl). unfold v3dot; cbn; ring.
Qed.

Lemma centerOfMass_rows d lvl sub : lvl <= 2 -> exists d', centerOfMass m d lvl sub = Ok d' (p3 (rows d' 0) F_com) /\
  (forall j, j < m_njoints m -> j = 0 \/ sub = true -> rows d' j = comDiv lvl (rows (downward m (comBack lvl false m) (comStart lvl d)) j)) /\
  (forall j, j < m_njoints m -> sc (rows d' j) F_mass = sc (rows (downward m (comBack lvl false m) (comStart lvl d)) j) F_mass).
Proof.
  intros Hl. unfold centerOfMass. destruct (Nat.ltb_spec 2 lvl); [lia|].
  change (upward m (comForward lvl m) (onRow d 0 (comZero lvl))) with (comStart lvl d). eexists. split; [reflexivity|].
  split.
  - intros j Hj Hs. rewrite onRow_at. destruct (Nat.eqb_spec 0 j) as [<-|Hn].
    + destruct sub; [|reflexivity]. f_equal. destruct (Nat.eq_dec (m_njoints m) 1) as [E1|].
      * unfold downward. rewrite E1. reflexivity.
      * pose proof (wf_n _ W). apply (comBack_sub lvl (comStart lvl d) 1); lia.
    + destruct Hs as [Hs|Hs]; [lia|]. rewrite Hs. apply comBack_sub; lia.
  - intros j Hj. rewrite onRow_at. destruct (Nat.eqb_spec 0 j) as [<-|Hn].
    + rewrite comDiv_mass. destruct sub; [|reflexivity]. f_equal. destruct (Nat.eq_dec (m_njoints m) 1) as [E1|].
      * unfold downward. rewrite E1. reflexivity.
      * pose proof (wf_n _ W). apply (comBack_sub lvl (comStart lvl d) 1); lia.
    + destruct sub; [|reflexivity]. rewrite (proj1 (comBack_sub lvl (comStart lvl d) j Hj ltac:(lia))). apply comDiv_mass.
Qed.

Theorem com_spec lvl sub q d : lvl <= 2 -> placed m q d -> subtreeMass m 0 <> 0%R ->
  exists d', centerOfMass m d lvl sub = Ok d' (subtreeCom m q 0) /\
    (forall j, j < m_njoints m -> sc (rows d' j) F_mass = subtreeMass m j) /\
    (forall j, j < m_njoints m -> subtreeMass m j <> 0%R -> j = 0 \/ sub = true -> se3_actPoint (worldPl m q j) (p3 (rows d' j) F_com) = subtreeCom m q j) /\
    (forall v j, 1 <= lvl -> (forall i, 0 < i < m_njoints m -> mo (rows d i) F_v = bodyVel m q v i) -> j < m_njoints m -> j = 0 \/ sub = true ->
       m3vec (rot (worldPl m q j)) (p3 (rows d' j) F_vcom) = subtreeVel q v j) /\
    (forall v a j, 2 <= lvl -> (forall i, 0 < i < m_njoints m -> mo (rows d i) F_v = bodyVel m q v i /\ mo (rows d i) F_a = bodyAcc m q v a i) -> j < m_njoints m -> j = 0 \/ sub = true ->
       m3vec (rot (worldPl m q j)) (p3 (rows d' j) F_acom) = subtreeAcc q v a j).
Proof.
  intros Hl HP HM. destruct (centerOfMass_rows d lvl sub Hl) as (d' & E & HR & HMs). exists d'.
  assert (HC : forall j, j < m_njoints m -> subtreeMass m j <> 0%R -> j = 0 \/ sub = true -> se3_actPoint (worldPl m q j) (p3 (rows d' j) F_com) = subtreeCom m q j).
  { intros j Hj Hne Hs. rewrite (HR j Hj Hs), comDiv_com. destruct (com_sums lvl q d HP j Hj) as (E1 & E2 & _). rewrite E1 in *.
    unfold subtreeCom. rewrite <- E2. unfold se3_actPoint. rewrite m3vec_scale.
    generalize (trans (worldPl m q j)) (m3vec (rot (worldPl m q j)) (p3 (rows (downward m (comBack lvl false m) (comStart lvl d)) j) F_com)).
    intros p x. apply v3_ext; cbn; field; exact Hne. }
  assert (H0 : p3 (rows d' 0) F_com = subtreeCom m q 0).
  { rewrite <- (HC 0 (wf_n _ W) HM (or_introl eq_refl)), (worldPl_0 m W T). apply v3_ext; cbn; ring. }
  split; [rewrite E, H0; reflexivity|]. split; [|split; [exact HC|split]].
  - intros j Hj. rewrite (HMs j Hj). apply (com_sums lvl q d HP j Hj).
  - intros v j H1 Hv Hj Hs. rewrite (HR j Hj Hs), comDiv_vcom by exact H1. destruct (com_sums lvl q d HP j Hj) as (E1 & _ & E3 & _).
    rewrite E1, m3vec_scale, (E3 H1 v Hv). reflexivity.
  - intros v a j H1 Hv Hj Hs. rewrite (HR j Hj Hs), comDiv_acom by exact H1. destruct (com_sums lvl q d HP j Hj) as (E1 & _ & _ & E4).
    rewrite E1, m3vec_scale, (E4 H1 v a Hv). reflexivity.
Qed.
End CoM.
