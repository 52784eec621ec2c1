(* The last pass of computeABADerivatives: the derivatives of the inverse dynamics at the computed acceleration, row by row. *)
Require Import Reals List Arith ZArith Lia Lra Bool.
From Verif Require Import Vec3 Spatial Inertia InertiaFacts SpatialFacts Joints Model Spec_Model ModelFacts ModelTree ModelFacts2 Sums Data Kinematics Spec_Kin Spec_Mass KinFacts KinFacts2 Spec_Dyn TreeSums MassFacts Crba CrbaFacts CrbaFacts2 CrbaFacts3 Spec_Chol Spec_Jac Spec_Jac CholFacts4 DataX Coriolis DerSums CoriolisFacts RneaDer DerPass RneaDerFacts RneaDerFacts2 RneaDerFacts4 Minverse AbaDer AbaDerFacts3.
Import ListNotations.
Local Open Scope nat_scope.
Local Open Scope bool_scope.

Section Row.
Variable eps : R.
Variable m : Model.
Hypothesis Bt : Built eps m.
Let W : wellFormed m := Built_wf eps m Bt.
Let T : treeInv m := Built_tree eps m Bt.
Hypothesis He : (0 < eps)%R.

Section Pass.
Context {St : Type}.
Variables (step : St -> nat -> St) (Yo : St -> nat -> Inertia) (Do : St -> nat -> M6) (Oo : St -> nat -> V6) (Fx : St -> nat -> V6) (Eo : St -> nat -> nat -> R) (s0 : St).
Variables (J V A : nat -> V6) (Ys : nat -> Inertia) (Ds : nat -> M6) (Os : nat -> V6) (fx : bool) (KI : nat -> St -> Prop).
Hypothesis KI0 : KI (m_njoints m) s0.
Hypothesis KIs : forall i s, 0 < i < m_njoints m -> KI (i + 1) s -> KI i (step s i).
Hypothesis Y0 : forall b, 0 < b < m_njoints m -> Yo s0 b = Ys b /\ regularMass eps (mass (Ys b)).
Hypothesis D0 : forall b, 0 < b < m_njoints m -> Do s0 b = Ds b.
Hypothesis O0 : forall b, 0 < b < m_njoints m -> Oo s0 b = Os b.
Hypothesis stY : forall i s j, 0 < i < m_njoints m -> 0 < j -> Yo (step s i) j = if parent m i =? j then inertia_plus eps (Yo s j) (Yo s i) else Yo s j.
Hypothesis stD : forall i s j, 0 < i < m_njoints m -> 0 < j -> Do (step s i) j = if parent m i =? j then m6add (Do s j) (Do s i) else Do s j.
Hypothesis stO : forall i s j, 0 < i < m_njoints m -> 0 < j -> Oo (step s i) j = if parent m i =? j then v6add (Oo s j) (Oo s i) else Oo s j.
Let base s i k : V6 := v6add (m6vec (Do s i) (V k)) (inertia_mul (Yo s i) (A k)).
Hypothesis stFx : forall i s c X, 0 < i < m_njoints m -> c < nvOf m i -> KI (i + 1) s -> v6dot X (Fx (step s i) (idx_v m i + c)) = v6dot X (v6add (base s i (idx_v m i + c)) (if fx then force_cross (J (idx_v m i + c)) (Oo s i) else v6zero)).
Hypothesis stFx' : forall i s j c, 0 < i < m_njoints m -> 0 < j < m_njoints m -> c < nvOf m j -> i <> j -> Fx (step s i) (idx_v m j + c) = Fx s (idx_v m j + c).
Hypothesis stE : forall i s a j c, 0 < i < m_njoints m -> a < nvOf m i -> 0 < j < m_njoints m -> c < nvOf m j -> KI (i + 1) s -> let k := idx_v m i + a in let l := idx_v m j + c in
  Eo (step s i) k l = if anc m j i && negb (j =? i) then Rplus (v6dot (inertia_mul (Yo s i) (J k)) (A l)) (v6dot (J k) (m6vec (Do s i) (V l)))
    else if anc m i j then (if i =? j then v6dot (J k) (base s i l) else v6dot (J k) (Fx s l)) else Eo s k l.
Hypothesis stE' : forall i s i' a l, 0 < i < m_njoints m -> 0 < i' < m_njoints m -> a < nvOf m i' -> i <> i' -> Eo (step s i) (idx_v m i' + a) l = Eo s (idx_v m i' + a) l.

Lemma row_pass :
  let t := downward m step s0 in
  KI 1 t /\
  forall i a j c, 0 < i < m_njoints m -> a < nvOf m i -> 0 < j < m_njoints m -> c < nvOf m j ->
  Eo t (idx_v m i + a) (idx_v m j + c) = if anc m i j || anc m j i then derEntry m J V A Ys Ds Os fx i j (idx_v m i + a) (idx_v m j + c) else Eo s0 (idx_v m i + a) (idx_v m j + c).
Proof.
  pose (Inv := fun k s => KI k s /\ (forall b, 0 < b < m_njoints m -> regularMass eps (mass (Yo s b))) /\
    (forall X Z, accInv m (fun s j => v6dot X (inertia_mul (Yo s j) Z)) s0 false k s) /\
    (forall X Z, accInv m (fun s j => v6dot X (m6vec (Do s j) Z)) s0 false k s) /\
    (forall X, accInv m (fun s j => v6dot X (Oo s j)) s0 false k s) /\
    (forall j c X, k <= j -> 0 < j < m_njoints m -> c < nvOf m j ->
        v6dot X (Fx s (idx_v m j + c)) = Rplus (subSum m j (fun b => v6dot X (v6add (m6vec (Ds b) (V (idx_v m j + c))) (inertia_mul (Ys b) (A (idx_v m j + c))))))
           (if fx then subSum m j (fun b => v6dot X (force_cross (J (idx_v m j + c)) (Os b))) else 0%R)) /\
    (forall i a j c, 0 < i < m_njoints m -> a < nvOf m i -> 0 < j < m_njoints m -> c < nvOf m j ->
      Eo s (idx_v m i + a) (idx_v m j + c) = if (k <=? i) && (anc m i j || anc m j i) then derEntry m J V A Ys Ds Os fx i j (idx_v m i + a) (idx_v m j + c) else Eo s0 (idx_v m i + a) (idx_v m j + c))).
  assert (H : Inv 1 (downward m step s0)).
  { apply downward_inv; [apply (wf_n _ W) | |].
    - split; [exact KI0|]. split; [intros b Hb; destruct (Y0 b Hb) as [-> H]; exact H|].
      split; [intros; apply accInv_start|]. split; [intros; apply accInv_start|]. split; [intros; apply accInv_start|]. split; [intros; lia|].
      intros i a j c Hi _ Hj _. destruct (Nat.leb_spec (m_njoints m) i); try lia. reflexivity.
    - intros i s Hi (I1 & IR & IY & ID & IO & I3 & I4). pose proof (wf_parent _ W i Hi) as Hp. assert (Hb0 : false || (0 <? i) = true) by (cbn [orb]; apply Nat.ltb_lt; lia).
      assert (CY : forall X Z, v6dot X (inertia_mul (Yo s i) Z) = subSum m i (fun b => v6dot X (inertia_mul (Ys b) Z))).
      { intros X Z. rewrite (acc_complete m W T _ s0 false (i + 1) s (IY X Z) i ltac:(lia) Hb0 ltac:(lia)). apply (subSum_ext m). intros b Hb Ab.
        destruct (Y0 b) as [-> _]; [|reflexivity]. apply (anc_le m W T) in Ab; lia. }
      assert (CD : forall X Z, v6dot X (m6vec (Do s i) Z) = subSum m i (fun b => v6dot X (m6vec (Ds b) Z))).
      { intros X Z. rewrite (acc_complete m W T _ s0 false (i + 1) s (ID X Z) i ltac:(lia) Hb0 ltac:(lia)). apply (subSum_ext m). intros b Hb Ab.
        rewrite (D0 b); [reflexivity|]. apply (anc_le m W T) in Ab; lia. }
      assert (CO : forall X, v6dot X (Oo s i) = subSum m i (fun b => v6dot X (Os b))).
      { intros X. rewrite (acc_complete m W T _ s0 false (i + 1) s (IO X) i ltac:(lia) Hb0 ltac:(lia)). apply (subSum_ext m). intros b Hb Ab.
        rewrite (O0 b); [reflexivity|]. apply (anc_le m W T) in Ab; lia. }
      assert (CB : forall X k, v6dot X (base s i k) = subSum m i (fun b => v6dot X (v6add (m6vec (Ds b) (V k)) (inertia_mul (Ys b) (A k))))).
      { intros X k. unfold base. rewrite v6dot_add_r, CD, CY, <- (subSum_add m). apply (subSum_ext m). intros b _ _. now rewrite v6dot_add_r. }
      split; [now apply KIs|]. split.
      { intros b Hb. rewrite (stY i s b Hi ltac:(lia)). destruct (Nat.eqb_spec (parent m i) b) as [<-|]; [apply regular_plus; auto | auto]. }
      split.
      { intros X Z. apply (accInv_step m W _ _ _ _ _ _ Hi (IY X Z)). intros j Hj Hj0. cbn [orb] in Hj0. apply Nat.ltb_lt in Hj0. rewrite (stY i s j Hi Hj0).
        destruct (Nat.eqb_spec (parent m i) j) as [<-|]; [|ring]. rewrite inertia_plus_mul by (apply regular_plus; auto; apply IR; lia). apply v6dot_add_r. }
      split.
      { intros X Z. apply (accInv_step m W _ _ _ _ _ _ Hi (ID X Z)). intros j Hj Hj0. cbn [orb] in Hj0. apply Nat.ltb_lt in Hj0. rewrite (stD i s j Hi Hj0).
        destruct (Nat.eqb_spec (parent m i) j) as [<-|]; [|ring]. rewrite m6vec_add_l. apply v6dot_add_r. }
      split.
      { intros X. apply (accInv_step m W _ _ _ _ _ _ Hi (IO X)). intros j Hj Hj0. cbn [orb] in Hj0. apply Nat.ltb_lt in Hj0. rewrite (stO i s j Hi Hj0).
        destruct (Nat.eqb_spec (parent m i) j) as [<-|]; [|ring]. apply v6dot_add_r. }
      split.
      { intros j c X Hij Hj Hc. destruct (Nat.eq_dec i j) as [<-|Hn].
        - rewrite (stFx i s c X Hi Hc I1), v6dot_add_r, CB. f_equal. destruct fx; [apply subSum_fcross, CO | apply v6dot_0_r].
        - rewrite (stFx' i s j c Hi Hj Hc Hn). apply I3; (assumption || lia). }
      intros i' a j c Hi' Ha Hj Hc. pose proof (I4 i' a j c Hi' Ha Hj Hc) as Ie. destruct (Nat.eq_dec i i') as [<-|Hn].
      + rewrite (stE i s a j c Hi Ha Hj Hc I1). destruct (Nat.leb_spec i i); [|lia]. cbn [andb]. unfold derEntry. rewrite (anc_strict eps m Bt i j ltac:(lia) Hj).
        destruct (anc m j i && negb (j =? i)) eqn:Aji.
        * apply andb_prop in Aji as [Aji Hne]. apply negb_true_iff, Nat.eqb_neq in Hne. rewrite Aji, orb_true_r.
          assert (N : anc m i j = false). { destruct (anc m i j) eqn:B; [|reflexivity]. pose proof (anc_le m W T i j ltac:(lia) B). pose proof (anc_le m W T j i ltac:(lia) Aji). lia. }
          rewrite N. cbn [andb]. rewrite andb_false_r, Rplus_0_r, (common_above m W T i j _ Aji), (v6dot_comm (inertia_mul _ _)), CD, CY, <- (subSum_add m).
          apply (subSum_ext m). intros b _ _. rewrite v6dot_add_r, (inertia_mul_sym (Ys b) (A _) (J _)). ring.
        * destruct (anc m i j) eqn:Aij; cbn [orb andb].
          -- pose proof (anc_le m W T i j ltac:(lia) Aij). rewrite (common_below m W T i j _ Aij).
             destruct (Nat.eqb_spec i j) as [<-|Hij]; cbn [negb]; [rewrite andb_false_r, CB; ring|]. rewrite andb_true_r. apply I3; assumption || lia.
          -- rewrite Ie. destruct (Nat.leb_spec (i + 1) i); [lia|]. cbn [andb]. destruct (anc m j i) eqn:B; [|reflexivity]. cbn [andb] in Aji. apply negb_false_iff, Nat.eqb_eq in Aji. subst j. congruence.
      + rewrite (stE' i s i' a _ Hi Hi' Ha Hn), Ie. destruct (Nat.leb_spec (i + 1) i'), (Nat.leb_spec i i'); try lia; reflexivity. }
  cbv zeta. destruct H as (H1 & _ & _ & _ & _ & _ & H4). split; [exact H1|].
  intros i a j c Hi Ha Hj Hc. rewrite (H4 i a j c Hi Ha Hj Hc). destruct (Nat.leb_spec 1 i); [reflexivity | lia].
Qed.
End Pass.
End Row.

(* a loop over columns that only writes one matrix *)
Lemma xm_fold P (g : nat -> (nat -> R) -> (nat -> nat -> R) -> nat -> nat -> R) (F : Data -> (XcT -> nat -> V6) -> nat -> nat -> R) L : forall s,
  let t := fold_left (fun s j => onXm s P (g j (F (bs s) (xco s) j))) L s in
  bs t = bs s /\ xco t = xco s /\ xma t P = fold_left (fun x j => g j (F (bs s) (xco s) j) x) L (xma s P) /\ forall P', P' <> P -> xma t P' = xma s P'.
Proof.
  induction L as [|j L IH]; intros s; cbv zeta; [cbn; auto|]. cbn [fold_left].
  destruct (IH (onXm s P (g j (F (bs s) (xco s) j)))) as (A & B & C & D). cbv zeta in *. rewrite A, B, C. split; [reflexivity|]. split; [reflexivity|]. split; [destruct P; memx; reflexivity|].
  intros P' HP. rewrite (D P' HP). destruct P', P; memx; congruence || reflexivity.
Qed.

(* the four loops over the columns of the supporting joints *)
Definition adL b n L (Jc : nat -> V6) dY (s : DX) : DX :=
  fold_left (fun s j => onXm s P_dv (addRowsCol b n j (fun k => v6dot (Jc k) (m6vec dY (co (gl (bs s)) F_J j))))) L
  (fold_left (fun s j => onXm s P_dq (addRowsCol b n j (fun k => v6dot (Jc k) (m6vec dY (co (gl (bs s)) F_dVdq j))))) L
  (fold_left (fun s j => onXm s P_dv (setRowsCol b n j (fun k => v6dot (xco s X_dFda (b + k)) (xco s X_dAdv j)))) L
  (fold_left (fun s j => onXm s P_dq (setRowsCol b n j (fun k => v6dot (xco s X_dFda (b + k)) (xco s X_dAdq j)))) L s))).
Lemma adL_eq b n L Jc dY s : NoDup L -> let t := adL b n L Jc dY s in bs t = bs s /\ xco t = xco s /\
  (forall k l, xma t P_dq k l = (if within b n k && inb l L then v6dot (xco s X_dFda k) (xco s X_dAdq l) + v6dot (Jc (k - b)%nat) (m6vec dY (co (gl (bs s)) F_dVdq l)) else xma s P_dq k l)%R) /\
  (forall k l, xma t P_dv k l = (if within b n k && inb l L then v6dot (xco s X_dFda k) (xco s X_dAdv l) + v6dot (Jc (k - b)%nat) (m6vec dY (co (gl (bs s)) F_J l)) else xma s P_dv k l)%R).
Proof.
  intros ND. unfold adL. cbv zeta.
  destruct (xm_fold P_dq (setRowsCol b n) (fun _ x j k => v6dot (x X_dFda (b + k)) (x X_dAdq j)) L s) as (A1 & A2 & A3 & A4). cbv beta zeta in A1, A2, A3, A4.
  set (s1 := fold_left _ L s) in *. clearbody s1.
  destruct (xm_fold P_dv (setRowsCol b n) (fun _ x j k => v6dot (x X_dFda (b + k)) (x X_dAdv j)) L s1) as (B1 & B2 & B3 & B4). cbv beta zeta in B1, B2, B3, B4.
  set (s2 := fold_left _ L s1) in *. clearbody s2.
  destruct (xm_fold P_dq (addRowsCol b n) (fun d _ j k => v6dot (Jc k) (m6vec dY (co (gl d) F_dVdq j))) L s2) as (C1 & C2 & C3 & C4). cbv beta zeta in C1, C2, C3, C4.
  set (s3 := fold_left _ L s2) in *. clearbody s3.
  destruct (xm_fold P_dv (addRowsCol b n) (fun d _ j k => v6dot (Jc k) (m6vec dY (co (gl d) F_J j))) L s3) as (D1 & D2 & D3 & D4). cbv beta zeta in D1, D2, D3, D4.
  set (s4 := fold_left _ L s3) in *. clearbody s4.
  split; [congruence|]. split; [congruence|]. split; intros k l.
  - rewrite (D4 P_dq) by discriminate. rewrite C3, (add_rows _ _ (fun j k => v6dot (Jc k) (m6vec dY (co (gl (bs s2)) F_dVdq j))) _ ND), (B4 P_dq) by discriminate.
    rewrite A3, (set_rows _ _ (fun j k => v6dot (xco s X_dFda (b + k)) (xco s X_dAdq j))), B1, A1. destruct (within b n k) eqn:Ek; cbn [andb]; [rewrite (within_add _ _ _ Ek)|]; destruct (inb l L); reflexivity.
  - rewrite D3, (add_rows _ _ (fun j k => v6dot (Jc k) (m6vec dY (co (gl (bs s3)) F_J j))) _ ND), (C4 P_dv) by discriminate.
    rewrite B3, (set_rows _ _ (fun j k => v6dot (xco s1 X_dFda (b + k)) (xco s1 X_dAdv j))), (A4 P_dv) by discriminate. rewrite C1, B1, A1, A2. destruct (within b n k) eqn:Ek; cbn [andb]; [rewrite (within_add _ _ _ Ek)|]; destruct (inb l L); reflexivity.
Qed.

Section Ad.
Variable eps : R.
Variable m : Model.
Hypothesis Bt : Built eps m.
Let W : wellFormed m := Built_wf eps m Bt.
Let T : treeInv m := Built_tree eps m Bt.
Hypothesis Vm : validModel m.
Hypothesis NM : noMimic m.
Hypothesis Pos : noRigidJoint m.
Hypothesis DF : depthFirst m.
Hypothesis RM : regularMasses eps m.
Notation own i k := (within (idx_v m i) (nvOf m i) k).
Notation sub i k := (within (idx_v m i) (Z.to_nat (nvSubtree m i)) k).

Lemma adBackV_eq i s : 0 < i < m_njoints m -> let t := adBackV m i s in
  bs t = bs s /\ (forall X, X <> X_dFdv -> xco t X = xco s X) /\ xma t P_dq = xma s P_dq /\
  (forall k, xco t X_dFdv k = if own i k then v6add (inertia_mul (Yr s i) (xco s X_dAdv k)) (m6vec (Dr s i) (Jm s k)) else xco s X_dFdv k) /\
  (forall k l, xma t P_dv k l = if own i k && sub i l then v6dot (Jm s k) (if own i l then v6add (inertia_mul (Yr s i) (xco s X_dAdv l)) (m6vec (Dr s i) (Jm s l)) else xco s X_dFdv l) else xma s P_dv k l).
Proof.
  intros Hi. destruct (jm_v m W Vm NM i Hi) as (E1 & E2 & E3 & E4). cbv zeta. unfold Jm, Dr, Yr. cbv beta delta [adBackV]. rewrite E1, E3. memx.
  split; [reflexivity|]. split; [intros X HX; destruct X; memx; congruence || reflexivity|]. split; [reflexivity|]. split.
  - intros k. unfold plusCols, setCols. destruct (own i k) eqn:E; [|reflexivity]. now rewrite (within_add _ _ _ E).
  - intros k l. unfold setBlock, plusCols, setCols. destruct (own i k) eqn:E, (sub i l) eqn:E'; cbn [andb]; try reflexivity. rewrite (within_add _ _ _ E), (within_add _ _ _ E'). destruct (own i l) eqn:E2'; [rewrite (within_add _ _ _ E2')|]; reflexivity.
Qed.
Definition baseQ s i k : V6 := if 0 <? parent m i then v6add (inertia_mul (Yr s i) (xco s X_dAdq k)) (m6vec (Dr s i) (co (gl (bs s)) F_dVdq k)) else inertia_mul (Yr s i) (xco s X_dAdq k).
Lemma adBackQ_eq i s : 0 < i < m_njoints m -> let t := adBackQ m i s in
  bs t = bs s /\ (forall X, X <> X_dFdq -> X <> X_dFda -> xco t X = xco s X) /\ xma t P_dv = xma s P_dv /\
  (forall k, xco t X_dFdq k = if own i k then v6add (baseQ s i k) (force_cross (Jm s k) (Or s i)) else xco s X_dFdq k) /\
  (forall k, xco t X_dFda k = if own i k then inertia_mul (Yr s i) (Jm s k) else xco s X_dFda k) /\
  (forall k l, xma t P_dq k l = if own i k && sub i l then v6dot (Jm s k) (if own i l then baseQ s i l else xco s X_dFdq l) else xma s P_dq k l).
Proof.
  intros Hi. destruct (jm_v m W Vm NM i Hi) as (E1 & E2 & E3 & E4). cbv zeta. unfold baseQ, Jm, Dr, Yr, Or. cbv beta delta [adBackQ]. rewrite E1, E3.
  destruct (0 <? parent m i); memx; (split; [reflexivity|]); (split; [intros X HX HX'; destruct X; memx; congruence || reflexivity|]); (split; [reflexivity|]); (split; [|split]).
  - intros k. unfold plusCols, setCols. destruct (own i k) eqn:E; [|reflexivity]. now rewrite (within_add _ _ _ E).
  - intros k. unfold setCols. destruct (own i k) eqn:E; [|reflexivity]. now rewrite (within_add _ _ _ E).
  - intros k l. unfold setBlock, plusCols, setCols. destruct (own i k) eqn:E, (sub i l) eqn:E'; cbn [andb]; try reflexivity. rewrite (within_add _ _ _ E), (within_add _ _ _ E'). destruct (own i l) eqn:E2'; [rewrite (within_add _ _ _ E2')|]; reflexivity.
  - intros k. unfold plusCols, setCols. destruct (own i k) eqn:E; [|reflexivity]. now rewrite (within_add _ _ _ E).
  - intros k. unfold setCols. destruct (own i k) eqn:E; [|reflexivity]. now rewrite (within_add _ _ _ E).
  - intros k l. unfold setBlock, plusCols, setCols. destruct (own i k) eqn:E, (sub i l) eqn:E'; cbn [andb]; try reflexivity. rewrite (within_add _ _ _ E), (within_add _ _ _ E'). destruct (own i l) eqn:E2'; [rewrite (within_add _ _ _ E2')|]; reflexivity.
Qed.
Lemma adBackL_eq i s : 0 < i < m_njoints m -> let t := adBackL m i s in
  bs t = bs s /\ xco t = xco s /\
  (forall k j c, 0 < j < m_njoints m -> c < nvOf m j -> let l := idx_v m j + c in
     xma t P_dq k l = (if own i k && (anc m j i && negb (j =? i)) then v6dot (xco s X_dFda k) (xco s X_dAdq l) + v6dot (Jm s k) (m6vec (Dr s i) (co (gl (bs s)) F_dVdq l)) else xma s P_dq k l)%R /\
     xma t P_dv k l = (if own i k && (anc m j i && negb (j =? i)) then v6dot (xco s X_dFda k) (xco s X_dAdv l) + v6dot (Jm s k) (m6vec (Dr s i) (Jm s l)) else xma s P_dv k l)%R) /\
  (forall k l, own i k = false -> xma t P_dq k l = xma s P_dq k l /\ xma t P_dv k l = xma s P_dv k l).
Proof.
  intros Hi. destruct (jm_v m W Vm NM i Hi) as (E1 & E2 & E3 & E4). cbv zeta. unfold Jm, Dr. cbv beta delta [adBackL]. rewrite E1, E3. pose proof (wf_parent _ W i Hi) as Hp.
  destruct (Nat.ltb_spec 0 (parent m i)) as [H|H].
  - destruct (adL_eq (idx_v m i) (nvOf m i) (aboveRows m i) (fun k => co (gl (bs s)) F_J (idx_v m i + k)) (m6 (rows (bs s) i) F_doYcrb) s (above_nodup eps m Bt Vm NM Pos i Hi)) as (A1 & A2 & A3 & A4).
    unfold adL in A1, A2, A3, A4. cbv zeta in A1, A2, A3, A4. split; [exact A1|]. split; [exact A2|]. split.
    + intros k j c Hj Hc. rewrite A3, A4, (above_in eps m Bt Vm NM Pos i j c Hi Hj Hc). destruct (own i k) eqn:Ek; [rewrite (within_add _ _ _ Ek)|]; split; reflexivity.
    + intros k l Hk. rewrite A3, A4, Hk. split; reflexivity.
  - split; [reflexivity|]. split; [reflexivity|]. split; [|auto].
    intros k j c Hj Hc.
    assert (N : anc m j i && negb (j =? i) = false).
    { rewrite <- (anc_strict eps m Bt j i ltac:(lia) Hi). replace (parent m i) with 0 by lia. destruct (anc m j 0) eqn:B; [|reflexivity]. apply (anc_le m W T) in B; lia. }
    rewrite N, andb_false_r. auto.
Qed.
Lemma adBackG_eq i s : 0 < i < m_njoints m -> let t := adBackG m i s in
  bs t = bs s /\ xma t = xma s /\ (forall X, X <> X_dAdq -> xco t X = xco s X) /\ (forall k, own i k = false -> xco t X_dAdq k = xco s X_dAdq k).
Proof.
  intros Hi. destruct (jm_v m W Vm NM i Hi) as (E1 & E2 & E3 & E4). cbv zeta. cbv beta delta [adBackG]. rewrite E1, E3. memx.
  split; [reflexivity|]. split; [reflexivity|]. split; [intros X HX; destruct X; memx; congruence || reflexivity|]. intros k ->. reflexivity.
Qed.

Definition isAd i (s t : DX) : Prop :=
  gl (bs t) = gl (bs s) /\ xco t X_dAdv = xco s X_dAdv /\ (forall k, own i k = false -> xco t X_dAdq k = xco s X_dAdq k) /\
  (forall j, 0 < j -> Yr t j = if parent m i =? j then inertia_plus eps (Yr s j) (Yr s i) else Yr s j) /\
  (forall j, 0 < j -> Dr t j = if parent m i =? j then m6add (Dr s j) (Dr s i) else Dr s j) /\
  (forall j, 0 < j -> Or t j = if parent m i =? j then v6add (Or s j) (Or s i) else Or s j) /\
  (forall k, xco t X_dFdv k = if own i k then v6add (inertia_mul (Yr s i) (xco s X_dAdv k)) (m6vec (Dr s i) (Jm s k)) else xco s X_dFdv k) /\
  (forall k, xco t X_dFdq k = if own i k then v6add (baseQ s i k) (force_cross (Jm s k) (Or s i)) else xco s X_dFdq k) /\
  (forall k l, own i k = false -> xma t P_dq k l = xma s P_dq k l /\ xma t P_dv k l = xma s P_dv k l) /\
  (forall k j c, own i k = true -> 0 < j < m_njoints m -> c < nvOf m j -> let l := idx_v m j + c in
     xma t P_dq k l = (if anc m j i && negb (j =? i) then v6dot (inertia_mul (Yr s i) (Jm s k)) (xco s X_dAdq l) + v6dot (Jm s k) (m6vec (Dr s i) (co (gl (bs s)) F_dVdq l))
        else if sub i l then v6dot (Jm s k) (if own i l then baseQ s i l else xco s X_dFdq l) else xma s P_dq k l)%R /\
     xma t P_dv k l = (if anc m j i && negb (j =? i) then v6dot (inertia_mul (Yr s i) (Jm s k)) (xco s X_dAdv l) + v6dot (Jm s k) (m6vec (Dr s i) (Jm s l))
        else if sub i l then v6dot (Jm s k) (if own i l then v6add (inertia_mul (Yr s i) (xco s X_dAdv l)) (m6vec (Dr s i) (Jm s l)) else xco s X_dFdv l) else xma s P_dv k l)%R).
Lemma ad_step i s : 0 < i < m_njoints m -> isAd i s (adBack2 eps m s i).
Proof.
  intros Hi. unfold adBack2. destruct (adBackV_eq i s Hi) as (V1 & V2 & V3 & V4 & V5). set (s1 := adBackV m i s) in *. clearbody s1.
  destruct (adBackQ_eq i s1 Hi) as (Q1 & Q2 & Q3 & Q4 & Q5 & Q6). set (s2 := adBackQ m i s1) in *. clearbody s2.
  destruct (adBackL_eq i s2 Hi) as (L1 & L2 & L3 & L4). set (s3 := adBackL m i s2) in *. clearbody s3.
  destruct (isP_eq eps m i s3) as (_ & PG & PX & PM & PY & PD & PO & _). set (s4 := rdBackP eps m i s3) in *. clearbody s4.
  destruct (adBackG_eq i s4 Hi) as (G1 & G2 & G3 & G4). set (t := adBackG m i s4) in *. clearbody t.
  assert (B3 : bs s3 = bs s) by congruence. assert (B2 : bs s2 = bs s) by congruence.
  assert (BQ : forall k, baseQ s1 i k = baseQ s i k) by (intros k; unfold baseQ, Yr, Dr; rewrite V1, (V2 X_dAdq) by discriminate; reflexivity).
  unfold isAd. split; [now rewrite G1, PG, B3|]. split; [rewrite (G3 X_dAdv), PX, L2, (Q2 X_dAdv), (V2 X_dAdv) by discriminate; reflexivity|].
  split; [intros k Hk; rewrite (G4 k Hk), PX, L2, (Q2 X_dAdq), (V2 X_dAdq) by discriminate; reflexivity|].
  split; [intros j Hj; unfold Yr in *; rewrite G1, (PY j Hj), B3; reflexivity|]. split; [intros j Hj; unfold Dr in *; rewrite G1, (PD j Hj), B3; reflexivity|]. split; [intros j Hj; unfold Or in *; rewrite G1, (PO j Hj), B3; reflexivity|].
  split; [intros k; rewrite (G3 X_dFdv), PX, L2, (Q2 X_dFdv) by discriminate; apply V4|].
  split; [intros k; rewrite (G3 X_dFdq), PX, L2, Q4, BQ, (V2 X_dFdq) by discriminate; unfold Jm, Or; now rewrite V1|]. split.
  - intros k l Hk. rewrite G2, PM. destruct (L4 k l Hk) as [-> ->]. rewrite Q6, Q3, V5, V3, Hk. split; reflexivity.
  - intros k j c Hk Hj Hc. rewrite G2, PM. destruct (L3 k j c Hj Hc) as [-> ->]. rewrite Hk. cbn [andb]. rewrite Q5, Q6, Q3, V5, V3, Hk, BQ, (Q2 X_dAdq), (Q2 X_dAdv), (V2 X_dAdq), (V2 X_dAdv), (V2 X_dFdq) by discriminate.
    unfold Jm, Dr, Yr. rewrite B2, V1. cbn [andb]. split; reflexivity.
Qed.

Definition adKeep s0 k (s : DX) : Prop := gl (bs s) = gl (bs s0) /\ xco s X_dAdv = xco s0 X_dAdv /\ forall j c, 0 < j < m_njoints m -> j < k -> c < nvOf m j -> xco s X_dAdq (idx_v m j + c) = xco s0 X_dAdq (idx_v m j + c).
Theorem ad_pass4 q v a fext s : adReady m q v fext a s -> let t := downward m (adBack2 eps m) s in
  gl (bs t) = gl (bs s) /\ fills m (qEntry m q v a (extOf fext)) (xma t P_dq) (xma s P_dq) /\ fills m (vEntry m q v) (xma t P_dv) (xma s P_dv).
Proof.
  intros AR t. destruct RM as [He RM'].
  assert (Y0 : forall b, 0 < b < m_njoints m -> Yr s b = worldInertia m q b /\ regularMass eps (mass (worldInertia m q b))) by (intros b Hb; split; [apply AR, Hb | unfold worldInertia, inertia_act; cbn [mass]; now apply RM']).
  assert (D0 : forall b, 0 < b < m_njoints m -> Dr s b = dYb m q v b) by (intros b Hb; apply AR, Hb).
  assert (O0 : forall b, 0 < b < m_njoints m -> Or s b = wF m q v a (extOf fext) b) by (intros b Hb; apply AR, Hb).
  assert (FC : forall i c, 0 < i < m_njoints m -> c < nvOf m i -> let k := idx_v m i + c in Jm s k = worldCol m q i c /\ co (gl (bs s)) F_dVdq k = cVq m q v i c /\ xco s X_dAdq k = cAq m q v a i c /\ xco s X_dAdv k = cAv m q v i c) by (intros i c Hi Hc; now apply AR).
  assert (K0 : adKeep s (m_njoints m) s) by (split; [reflexivity|]; split; [reflexivity|]; auto).
  assert (KS : forall i u, 0 < i < m_njoints m -> adKeep s (i + 1) u -> adKeep s i (adBack2 eps m u i)).
  { intros i u Hi (K1 & K2 & K3). destruct (ad_step i u Hi) as (A1 & A2 & A3 & _). split; [congruence|]. split; [congruence|]. intros j c Hj Hji Hc. rewrite A3; [apply K3; assumption || lia|].
    rewrite (within_own m W NM i j c Hi Hj Hc). apply Nat.eqb_neq. lia. }
  assert (SJ : forall u k, adKeep s k u -> Jm u = Jm s /\ co (gl (bs u)) F_dVdq = co (gl (bs s)) F_dVdq /\ xco u X_dAdv = xco s X_dAdv) by (intros u k (A1 & A2 & _); unfold Jm; rewrite A1; auto).
  assert (OW : forall i c, 0 < i < m_njoints m -> c < nvOf m i -> own i (idx_v m i + c) = true) by (intros i c Hi Hc; rewrite (within_own m W NM i i c Hi Hi Hc); apply Nat.eqb_refl).
  assert (HB : forall i u c X, 0 < i < m_njoints m -> c < nvOf m i -> adKeep s (i + 1) u -> v6dot X (baseQ u i (idx_v m i + c)) = v6dot X (v6add (m6vec (Dr u i) (co (gl (bs s)) F_dVdq (idx_v m i + c))) (inertia_mul (Yr u i) (xco s X_dAdq (idx_v m i + c))))).
  { intros i u c X Hi Hc K. unfold baseQ. destruct (SJ u _ K) as (_ & -> & _). destruct K as (_ & _ & K3). rewrite (K3 i c Hi ltac:(lia) Hc). destruct (Nat.ltb_spec 0 (parent m i)) as [H|H].
    - rewrite !v6dot_add_r. ring.
    - destruct (FC i c Hi Hc) as (_ & -> & _). unfold cVq. replace (parent m i) with 0 by lia. rewrite (worldVel_0 m W T), v6dot_add_r.
      replace (motion_cross v6zero (worldCol m q i c)) with v6zero by sring. rewrite m6vec_0_r, v6dot_0_r. ring. }
  assert (AN : forall i j, 0 < i < m_njoints m -> 0 < j < m_njoints m -> anc m j i && negb (j =? i) = true -> j < i).
  { intros i j Hi Hj E. apply andb_prop in E as [E1 E2]. apply negb_true_iff, Nat.eqb_neq in E2. pose proof (anc_le m W T j i ltac:(lia) E1). lia. }
  assert (DQ := row_pass eps m Bt He (adBack2 eps m) Yr Dr Or (fun u => xco u X_dFdq) (fun u => xma u P_dq) s (Jm s) (co (gl (bs s)) F_dVdq) (xco s X_dAdq) (worldInertia m q) (dYb m q v) (wF m q v a (extOf fext)) true (adKeep s) K0 KS Y0 D0 O0
    (fun i u j Hi Hj => proj1 (proj2 (proj2 (proj2 (ad_step i u Hi)))) j Hj) (fun i u j Hi Hj => proj1 (proj2 (proj2 (proj2 (proj2 (ad_step i u Hi))))) j Hj) (fun i u j Hi Hj => proj1 (proj2 (proj2 (proj2 (proj2 (proj2 (ad_step i u Hi)))))) j Hj)).
  assert (DV := row_pass eps m Bt He (adBack2 eps m) Yr Dr Or (fun u => xco u X_dFdv) (fun u => xma u P_dv) s (Jm s) (Jm s) (xco s X_dAdv) (worldInertia m q) (dYb m q v) (wF m q v a (extOf fext)) false (adKeep s) K0 KS Y0 D0 O0
    (fun i u j Hi Hj => proj1 (proj2 (proj2 (proj2 (ad_step i u Hi)))) j Hj) (fun i u j Hi Hj => proj1 (proj2 (proj2 (proj2 (proj2 (ad_step i u Hi))))) j Hj) (fun i u j Hi Hj => proj1 (proj2 (proj2 (proj2 (proj2 (proj2 (ad_step i u Hi)))))) j Hj)).
  destruct DQ as (D1 & D2).
  { intros i u c X Hi Hc K. destruct (ad_step i u Hi) as (_ & _ & _ & _ & _ & _ & _ & E & _). rewrite E, (OW i c Hi Hc), !v6dot_add_r, (HB i u c X Hi Hc K), v6dot_add_r. destruct (SJ u _ K) as (-> & _). reflexivity. }
  { intros i u j c Hi Hj Hc Hn. destruct (ad_step i u Hi) as (_ & _ & _ & _ & _ & _ & _ & E & _). rewrite E, (within_own m W NM i j c Hi Hj Hc). destruct (Nat.eqb_spec i j); [congruence | reflexivity]. }
  { intros i u a' j c Hi Ha Hj Hc K. destruct (ad_step i u Hi) as (_ & _ & _ & _ & _ & _ & _ & _ & _ & E). cbv zeta. destruct (E (idx_v m i + a') j c (OW i a' Hi Ha) Hj Hc) as [-> _].
    rewrite (within_subtree m W T Vm NM DF i j c Hi Hj Hc), (within_own m W NM i j c Hi Hj Hc). pose proof (SJ u _ K) as (EJ & EV & _). rewrite EJ, EV. destruct (anc m j i && negb (j =? i)) eqn:Eb.
    - destruct K as (_ & _ & K3). pose proof (AN i j Hi Hj Eb). rewrite (K3 j c Hj ltac:(lia) Hc). reflexivity.
    - destruct (anc m i j); [|reflexivity]. destruct (Nat.eqb_spec i j) as [<-|]; [|reflexivity]. now apply HB. }
  { intros i u i' a' l Hi Hi' Ha Hn. destruct (ad_step i u Hi) as (_ & _ & _ & _ & _ & _ & _ & _ & E & _). apply E. rewrite (within_own m W NM i i' a' Hi Hi' Ha). now apply Nat.eqb_neq. }
  destruct DV as (V1 & V2).
  { intros i u c X Hi Hc K. destruct (ad_step i u Hi) as (_ & _ & _ & _ & _ & _ & E & _). rewrite E, (OW i c Hi Hc), !v6dot_add_r. destruct (SJ u _ K) as (-> & _ & ->). rewrite v6dot_0_r. ring. }
  { intros i u j c Hi Hj Hc Hn. destruct (ad_step i u Hi) as (_ & _ & _ & _ & _ & _ & E & _). rewrite E, (within_own m W NM i j c Hi Hj Hc). destruct (Nat.eqb_spec i j); [congruence | reflexivity]. }
  { intros i u a' j c Hi Ha Hj Hc K. destruct (ad_step i u Hi) as (_ & _ & _ & _ & _ & _ & _ & _ & _ & E). cbv zeta. destruct (E (idx_v m i + a') j c (OW i a' Hi Ha) Hj Hc) as [_ ->].
    rewrite (within_subtree m W T Vm NM DF i j c Hi Hj Hc), (within_own m W NM i j c Hi Hj Hc). pose proof (SJ u _ K) as (EJ & _ & EV). rewrite EJ, EV. destruct (anc m j i && negb (j =? i)) eqn:Eb; [reflexivity|].
    destruct (anc m i j); [|reflexivity]. destruct (Nat.eqb_spec i j) as [<-|]; [|reflexivity]. rewrite !v6dot_add_r. ring. }
  { intros i u i' a' l Hi Hi' Ha Hn. destruct (ad_step i u Hi) as (_ & _ & _ & _ & _ & _ & _ & _ & E & _). apply E. rewrite (within_own m W NM i i' a' Hi Hi' Ha). now apply Nat.eqb_neq. }
  fold t in D1, D2, V1, V2. split; [apply D1|]. split; intros i c j l Hi Hc Hj Hl.
  - rewrite (D2 i c j l Hi Hc Hj Hl). unfold derEntry, qEntry. destruct (FC i c Hi Hc) as (-> & _ & _ & _). destruct (FC j l Hj Hl) as (-> & -> & -> & _). reflexivity.
  - rewrite (V2 i c j l Hi Hc Hj Hl). unfold derEntry, vEntry. destruct (FC i c Hi Hc) as (-> & _ & _ & _). destruct (FC j l Hj Hl) as (-> & _ & _ & ->). cbn [andb]. rewrite Rplus_0_r. reflexivity.
Qed.
End Ad.
