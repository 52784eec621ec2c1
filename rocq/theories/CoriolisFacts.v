(* The passes of the Coriolis matrix. *)
Require Import Reals List Arith ZArith Lia Lra Bool.
From Verif Require Import Vec3 Spatial Inertia InertiaFacts SpatialFacts Joints Model Spec_Model ModelFacts ModelTree ModelFacts2 Sums Data Kinematics Spec_Kin Spec_Mass KinFacts KinFacts2 Spec_Dyn DynFacts DynFacts2 TreeSums MassFacts Crba CrbaFacts CrbaFacts2 AbaFacts AbaFacts3 Jacobian Spec_Jac JacFacts JacFacts2 JacFacts3 CholFacts4 Com Dccrba DccrbaFacts DataX Coriolis DerSums.
Import ListNotations.
Local Open Scope nat_scope.
Local Open Scope bool_scope.

Lemma upward_onBs m (f : Data -> nat -> Data) s : upward m (fun s i => onBs s (fun d => f d i)) s = onBs s (fun d => upward m f d).
Proof. unfold upward. revert s. induction (seq 1 (m_njoints m - 1)) as [|i l IH]; intros s; [destruct s; reflexivity|]. cbn [fold_left]. rewrite IH. destruct s. reflexivity. Qed.

Lemma walk_more next : forall f f' e k, f <= f' -> In k (walk next f e) -> In k (walk next f' e).
Proof.
  induction f as [|f IH]; intros f' e k Hf H; [destruct H|]. destruct f' as [|f']; [lia|]. cbn [walk] in *. destruct (e <? 0)%Z; [destruct H|].
  destruct H as [H|H]; [now left | right; apply (IH f'); [lia | exact H]].
Qed.

(* one statement for all the loops over the rows above *)
Lemma fold_rows (g : (nat -> nat -> R) -> nat -> (nat -> R) -> nat -> nat -> R) (f : (CoT -> nat -> V6) -> (nat -> Row) -> nat -> nat -> R) l : forall d,
  let d' := fold_left (fun d j => onC d (fun x => g x j (f (co (gl d)) (rows d) j))) l d in
  rows d' = rows d /\ co (gl d') = co (gl d) /\ fcrb (gl d') = fcrb (gl d) /\ ma (gl d') F_M = ma (gl d) F_M /\
  ma (gl d') F_C = fold_left (fun x j => g x j (f (co (gl d)) (rows d) j)) l (ma (gl d) F_C).
Proof.
  induction l as [|j l IH]; intros d; [cbn; auto|]. cbn [fold_left]. destruct (IH (onC d (fun x => g x j (f (co (gl d)) (rows d) j)))) as (A & B & C & M & D). cbv zeta in *.
  rewrite A, B, C, M, D. unfold onC. mem. auto.
Qed.
Lemma set_rows b n (f : nat -> nat -> R) l : forall x k e,
  fold_left (fun x j => setRowsCol b n j (f j) x) l x k e = if within b n k && inb e l then f e (k - b) else x k e.
Proof.
  induction l as [|j l IH]; intros x k e; [cbn; now rewrite andb_false_r|]. cbn [fold_left]. rewrite IH. unfold setRowsCol, inb. cbn [existsb]. rewrite ?(Nat.eqb_sym e j).
  destruct (within b n k); cbn [andb]; [|reflexivity]. destruct (Nat.eqb_spec j e) as [->|]; cbn [orb]; [destruct (existsb _ l); reflexivity | reflexivity].
Qed.
Lemma add_rows b n (f : nat -> nat -> R) l : NoDup l -> forall x k e,
  fold_left (fun x j => addRowsCol b n j (f j) x) l x k e = if within b n k && inb e l then Rplus (x k e) (f e (k - b)) else x k e.
Proof.
  induction 1 as [|j l Hj _ IH]; intros x k e; [cbn; now rewrite andb_false_r|]. cbn [fold_left]. rewrite IH. unfold addRowsCol, inb. cbn [existsb]. rewrite ?(Nat.eqb_sym e j).
  destruct (within b n k); cbn [andb]; [|reflexivity]. destruct (Nat.eqb_spec j e) as [->|]; cbn [orb]; [|reflexivity].
  destruct (existsb (fun k : nat => k =? e) l) eqn:Ex; [|reflexivity]. exfalso. apply Hj. now apply inb_In.
Qed.

Section Cor.
Variable eps : R.
Variable m : Model.
Hypothesis Bt : Built eps m.
Let W : wellFormed m := Built_wf eps m Bt.
Let T : treeInv m := Built_tree eps m Bt.
Hypothesis Vm : validModel m.
Hypothesis NM : noMimic m.
Hypothesis Pos : noRigidJoint m.

Lemma nv_pos i : 0 < i < m_njoints m -> 0 < nvOf m i.
Proof. intros Hi. rewrite <- (nvE_nv m W Vm i (NM i Hi) Hi). now apply Pos. Qed.
Lemma above_in i j c : 0 < i < m_njoints m -> 0 < j < m_njoints m -> c < nvOf m j -> inb (idx_v m j + c) (aboveRows m i) = anc m j i && negb (j =? i).
Proof.
  intros Hi Hj Hc. apply eq_true_iff_eq. rewrite inb_In. unfold aboveRows. destruct (jm_v m W Vm NM i Hi) as (-> & _).
  replace (t_par (rowTables m) (idx_v m i)) with (t_par (rowTables m) (idx_v m i + 0)) by (now rewrite Nat.add_0_r).
  rewrite (walk_in eps m Bt Vm NM Pos i 0 _ Hi (nv_pos i Hi)). rewrite andb_true_iff, negb_true_iff, Nat.eqb_neq. split.
  - intros (j' & c' & Hj' & Hc' & E & Hl & A). destruct (dof_unique m W NM j c j' c' Hj Hj' Hc Hc' E) as [-> ->]. split; [exact A|]. intros ->. lia.
  - intros [A Hn]. exists j, c. repeat (split; [assumption || reflexivity|]). split; [|exact A]. apply (anc_le m W T) in A; [|lia].
    pose proof (idx_v_mono m W NM j i ltac:(lia) ltac:(lia) ltac:(lia)). lia.
Qed.
Lemma above_nodup i : 0 < i < m_njoints m -> NoDup (aboveRows m i).
Proof.
  intros Hi. unfold aboveRows. 
  assert (G : forall f e, (e < Z.of_nat (m_nv m))%Z -> f <= S (m_nvE m) -> NoDup (walk (t_par (rowTables m)) f e)).
  { induction f as [|f IH]; intros e He Hf; [constructor|]. cbn [walk]. destruct (Z.ltb_spec e 0); [constructor|].
    destruct (dof_owner m W (Z.to_nat e) ltac:(lia)) as (j & c & Hj & Hc & E).
    assert (L : forall k, In k (walk (t_par (rowTables m)) f (t_par (rowTables m) (Z.to_nat e))) -> k < Z.to_nat e).
    { intros k Hk. apply (walk_more _ f (S (m_nvE m))) in Hk; [|lia]. rewrite E in Hk |- *. apply (walk_in eps m Bt Vm NM Pos j c k Hj Hc) in Hk.
      destruct Hk as (_ & _ & _ & _ & _ & Hk & _). exact Hk. }
    constructor; [intros Hin; apply L in Hin; lia|]. destruct f as [|f]; [constructor|]. apply IH; [|lia].
    cbn [walk] in L. destruct (Z.ltb_spec (t_par (rowTables m) (Z.to_nat e)) 0); [lia|]. specialize (L _ (or_introl eq_refl)). lia. }
  apply G; [|lia]. destruct (jm_v m W Vm NM i Hi) as (-> & _).
  destruct (Z.ltb_spec (t_par (rowTables m) (idx_v m i)) 0); [lia|].
  assert (HI : In (Z.to_nat (t_par (rowTables m) (idx_v m i + 0))) (walk (t_par (rowTables m)) (S (m_nvE m)) (t_par (rowTables m) (idx_v m i + 0)))).
  { cbn [walk]. rewrite Nat.add_0_r. destruct (Z.ltb_spec (t_par (rowTables m) (idx_v m i)) 0); [lia|]. now left. }
  apply (walk_in eps m Bt Vm NM Pos i 0 _ Hi (nv_pos i Hi)) in HI. rewrite Nat.add_0_r in HI. destruct HI as (j & c & Hj & Hc & E & Hl & _).
  pose proof (idx_v_bound m W NM i Hi). lia.
Qed.

Lemma corBlocks_spec i F d : 0 < i < m_njoints m -> let d' := corBlocks m i F d in
  rows d' = rows d /\ fcrb (gl d') = fcrb (gl d) /\ co (gl d') F_J = co (gl d) F_J /\ co (gl d') F_dJ = co (gl d) F_dJ /\ ma (gl d') F_M = ma (gl d) F_M /\
  forall k l, ma (gl d') F_C k l =
    if within (idx_v m i) (nvOf m i) k then
      if inb l (aboveRows m i) then Rplus (v6dot (inertia_mul (yi (rows d i) F_oYcrb) (co (gl d) F_J k)) (co (gl d) F_dJ l)) (v6dot (co (gl d) F_J k) (m6vec (m6 (rows d i) F_oB) (co (gl d) F_J l)))
      else if within (idx_v m i) (Z.to_nat (nvSubtree m i)) l then v6dot (co (gl d) F_J k) (F l) else ma (gl d) F_C k l
    else ma (gl d) F_C k l.
Proof.
  intros Hi. cbv zeta. unfold corBlocks. destruct (jm_v m W Vm NM i Hi) as (E1 & E2 & E3 & E4). rewrite E1, E2, E3. cbv zeta.
  set (d1 := onC d _). set (d2 := onCo d1 F_Ag _).
  destruct (fold_rows (fun x j h => setRowsCol (idx_v m i) (nvOf m i) j h x) (fun c _ j k => v6dot (c F_Ag (idx_v m i + k)) (c F_dJ j)) (aboveRows m i) d2) as (A1 & A2 & A3 & AM & A4).
  cbv zeta in A1, A2, A3, AM, A4. set (d3 := fold_left _ (aboveRows m i) d2) in *.
  destruct (fold_rows (fun x j h => addRowsCol (idx_v m i) (nvOf m i) j h x) (fun c r j k => v6dot (co (gl d) F_J (idx_v m i + k)) (m6vec (m6 (r i) F_oB) (c F_J j))) (aboveRows m i) d3) as (B1 & B2 & B3 & BM & B4).
  cbv zeta in B1, B2, B3, BM, B4. set (d4 := fold_left _ (aboveRows m i) d3) in *.
  rewrite B1, B2, B3, B4, BM, A1, A2, A3, AM. 
  split; [reflexivity|]. split; [reflexivity|]. split; [reflexivity|]. split; [reflexivity|]. split; [reflexivity|].
  intros k l. rewrite (add_rows _ _ _ _ (above_nodup i Hi)), A4, set_rows. destruct (within (idx_v m i) (nvOf m i) k) eqn:Ek; cbn [andb].
  - assert (Ek' : idx_v m i + (k - idx_v m i) = k) by (apply within_true in Ek; lia).
    destruct (inb l (aboveRows m i)) eqn:El.
    + unfold d2, d1, onCo, onC. mem. unfold setCols. rewrite Ek', Ek, Ek'. reflexivity.
    + unfold d2, d1, onCo, onC. mem. unfold setBlock. rewrite Ek. cbn [andb]. destruct (within (idx_v m i) _ l) eqn:Ew; [|reflexivity].
      assert (El' : idx_v m i + (l - idx_v m i) = l) by (unfold within in Ew; apply andb_true_iff in Ew; destruct Ew as [Ew _]; apply Nat.leb_le in Ew; lia).
      rewrite Ek', El'. reflexivity.
  - unfold d2, d1, onCo, onC. mem. unfold setBlock. rewrite Ek. reflexivity.
Qed.

Hypothesis DF : depthFirst m.
(* the backward pass, for both ways of obtaining the composite inertias *)
Section Pass.
Context {St : Type}.
Variables (step : St -> nat -> St) (Yo : St -> nat -> Inertia) (Bo : St -> nat -> M6) (Fo : St -> nat -> V6) (Co : St -> nat -> nat -> R) (s0 : St).
Variables (J dJ : nat -> V6) (Ys : nat -> Inertia) (Bs : nat -> M6) (YI : nat -> St -> Prop).
Hypothesis YI0 : YI (m_njoints m) s0.
Hypothesis YIs : forall i s, 0 < i < m_njoints m -> YI (i + 1) s -> YI i (step s i).
Hypothesis YIc : forall i s A B, 0 < i < m_njoints m -> YI (i + 1) s -> v6dot A (inertia_mul (Yo s i) B) = subSum m i (fun b => v6dot A (inertia_mul (Ys b) B)).
Hypothesis B0 : forall b, 0 < b < m_njoints m -> Bo s0 b = Bs b.
Hypothesis stB : forall i s j, 0 < i < m_njoints m -> 0 < j -> YI (i + 1) s -> Bo (step s i) j = if parent m i =? j then m6add (Bo s j) (Bo s i) else Bo s j.
Hypothesis stF : forall i s k, 0 < i < m_njoints m -> YI (i + 1) s -> Fo (step s i) k = if within (idx_v m i) (nvOf m i) k then v6add (inertia_mul (Yo s i) (dJ k)) (m6vec (Bo s i) (J k)) else Fo s k.
Hypothesis stC : forall i s k l, 0 < i < m_njoints m -> YI (i + 1) s -> Co (step s i) k l =
    if within (idx_v m i) (nvOf m i) k then
      if inb l (aboveRows m i) then Rplus (v6dot (inertia_mul (Yo s i) (J k)) (dJ l)) (v6dot (J k) (m6vec (Bo s i) (J l)))
      else if within (idx_v m i) (Z.to_nat (nvSubtree m i)) l then v6dot (J k) (Fo (step s i) l) else Co s k l
    else Co s k l.
Definition corEntry i j k l : R := common m i j (fun b => v6dot (J k) (v6add (inertia_mul (Ys b) (dJ l)) (m6vec (Bs b) (J l)))).
Lemma cor_pass i a j c : 0 < i < m_njoints m -> a < nvOf m i -> 0 < j < m_njoints m -> c < nvOf m j ->
  Co (downward m step s0) (idx_v m i + a) (idx_v m j + c) =
  if anc m i j || anc m j i then corEntry i j (idx_v m i + a) (idx_v m j + c) else Co s0 (idx_v m i + a) (idx_v m j + c).
Proof.
  pose (Inv := fun k s => YI k s /\ (forall A B, accInv m (fun s j => v6dot A (m6vec (Bo s j) B)) s0 false k s) /\
    (forall j c A, k <= j -> 0 < j < m_njoints m -> c < nvOf m j -> v6dot A (Fo s (idx_v m j + c)) = subSum m j (fun b => v6dot A (v6add (inertia_mul (Ys b) (dJ (idx_v m j + c))) (m6vec (Bs b) (J (idx_v m j + c)))))) /\
    (forall i a j c, 0 < i < m_njoints m -> a < nvOf m i -> 0 < j < m_njoints m -> c < nvOf m j ->
      Co s (idx_v m i + a) (idx_v m j + c) = if (k <=? i) && (anc m i j || anc m j i) then corEntry i j (idx_v m i + a) (idx_v m j + c) else Co s0 (idx_v m i + a) (idx_v m j + c))).
  assert (H : Inv 1 (downward m step s0)).
  { apply downward_inv; [apply (wf_n _ W) | |].
    - split; [exact YI0|]. split; [intros; apply accInv_start|]. split; [intros; lia|]. intros i0 a0 j0 c0 Hi0 _ _ _. destruct (Nat.leb_spec (m_njoints m) i0); [lia | reflexivity].
    - clear i a j c. intros i s Hi (I1 & I2 & I3 & I4).
      assert (CB : forall A B, v6dot A (m6vec (Bo s i) B) = subSum m i (fun b => v6dot A (m6vec (Bs b) B))).
      { intros A B. assert (Hb0 : false || (0 <? i) = true) by (cbn [orb]; apply Nat.ltb_lt; lia).
        rewrite (acc_complete m W T _ s0 false (i + 1) s (I2 A B) i ltac:(lia) Hb0 ltac:(lia)). apply (subSum_ext m). intros b Hb Ab.
        rewrite B0; [reflexivity|]. apply (anc_le m W T) in Ab; lia. }
      assert (CF : forall j c A, i <= j -> 0 < j < m_njoints m -> c < nvOf m j -> v6dot A (Fo (step s i) (idx_v m j + c)) = subSum m j (fun b => v6dot A (v6add (inertia_mul (Ys b) (dJ (idx_v m j + c))) (m6vec (Bs b) (J (idx_v m j + c)))))).
      { intros j c A Hij Hj Hc. rewrite (stF i s _ Hi I1), (within_own m W NM i j c Hi Hj Hc). destruct (Nat.eqb_spec i j) as [<-|]; [|apply I3; (assumption || lia)].
        rewrite v6dot_add_r, (YIc i s _ _ Hi I1), CB, <- (subSum_add m). apply (subSum_ext m). intros b _ _. now rewrite v6dot_add_r. }
      split; [now apply YIs|]. split; [|split; [exact CF|]].
      + intros A B. apply (accInv_step m W _ _ _ _ _ _ Hi (I2 A B)). intros j Hj Hj0. cbn [orb] in Hj0. apply Nat.ltb_lt in Hj0. rewrite (stB i s j Hi Hj0 I1).
        destruct (Nat.eqb_spec (parent m i) j) as [<-|]; [|ring]. rewrite m6vec_add_l. apply v6dot_add_r.
      + intros i' a j c Hi' Ha Hj Hc. rewrite (stC i s _ _ Hi I1), (within_own m W NM i i' a Hi Hi' Ha). destruct (Nat.eqb_spec i i') as [<-|Hn].
        * rewrite (above_in i j c Hi Hj Hc), (within_subtree m W T Vm NM DF i j c Hi Hj Hc). destruct (Nat.leb_spec i i); [|lia]. cbn [andb].
          destruct (anc m j i) eqn:Aji; cbn [andb].
          -- destruct (Nat.eqb_spec j i) as [->|Hji]; cbn [negb].
             ++ rewrite Aji. cbn [orb]. rewrite CF by (assumption || lia). unfold corEntry. now rewrite (common_below m W T).
             ++ rewrite orb_true_r. unfold corEntry. rewrite (common_above m W T) by exact Aji.
                assert (SY : v6dot (inertia_mul (Yo s i) (J (idx_v m i + a))) (dJ (idx_v m j + c)) = v6dot (J (idx_v m i + a)) (inertia_mul (Yo s i) (dJ (idx_v m j + c)))) by (rewrite v6dot_comm; apply inertia_mul_sym).
                rewrite SY, (YIc i s _ _ Hi I1), CB, <- (subSum_add m). apply (subSum_ext m). intros b _ _. now rewrite v6dot_add_r.
          -- rewrite orb_false_r. destruct (anc m i j) eqn:Aij.
             ++ pose proof (anc_le m W T i j ltac:(lia) Aij). rewrite CF by (assumption || lia). unfold corEntry. now rewrite (common_below m W T).
             ++ rewrite (I4 i a j c Hi Ha Hj Hc). destruct (Nat.leb_spec (i + 1) i); [lia | reflexivity].
        * rewrite (I4 i' a j c Hi' Ha Hj Hc). destruct (Nat.leb_spec (i + 1) i'), (Nat.leb_spec i i'); try lia; reflexivity. }
  intros Hi Ha Hj Hc. destruct H as (_ & _ & _ & H). rewrite (H i a j c Hi Ha Hj Hc). destruct (Nat.leb_spec 1 i); [reflexivity | lia].
Qed.
End Pass.
End Cor.
