(* The memory the algorithms work on: pinocchio::Data, and loops over the joints of a model. *)
Require Import Reals List Arith Lia.
From Verif Require Import Vec3 Spatial Inertia Joints Model Spec_Model.
Import ListNotations.
Local Open Scope nat_scope.

(* data.hpp 91-580: every std::vector indexed by joints is one column of a row per joint.  The tags name the fields. *)
Inductive MoT := F_v | F_a | F_a_gf | F_ov | F_oa | F_oa_gf | F_f | F_of | F_h | F_oh | F_odh.
Inductive PlT := F_oMi | F_liMi | F_iMf.
Inductive YiT := F_Ycrb | F_oYcrb | F_oinertias.
Inductive M6T := F_Yaba | F_oYaba | F_doYcrb | F_vxI | F_Ivx | F_dYcrb | F_oB.
Inductive P3T := F_com | F_vcom | F_acom.
Inductive ScT := F_mass.
Scheme Equality for MoT.
Scheme Equality for PlT.
Scheme Equality for YiT.
Scheme Equality for M6T.
Scheme Equality for P3T.
Scheme Equality for ScT.

Record Row := mkRow {
  mo : MoT -> V6; pl : PlT -> SE3; yi : YiT -> Inertia; m6 : M6T -> M6; p3 : P3T -> V3; sc : ScT -> R;
  jd : JData;                                     (* data.joints[i], kinematic part *)
  jU : list V6; jDinv : nat -> nat -> R; jUDinv : list V6   (* data.joints[i].U, Dinv, UDinv, written by calc_aba *)
}.

(* fields that are not indexed by joints *)
Inductive VeT := F_tau | F_nle | F_g | F_u | F_ddq | F_D | F_tmp.
Inductive CoT := F_J | F_dJ | F_Ag | F_dAg | F_IS | F_dVdq | F_Jtmp.
Inductive MaT := F_M | F_C | F_Minv | F_U.
Inductive GvT := F_hg | F_dhg.
Inductive GsT := F_kinetic | F_potential | F_mechanical.
Scheme Equality for VeT.
Scheme Equality for CoT.
Scheme Equality for MaT.
Scheme Equality for GvT.
Scheme Equality for GsT.

Record Glob := mkGlob {
  ve : VeT -> nat -> R;            (* vectors of size nv *)
  co : CoT -> nat -> V6;           (* matrices with 6 rows, column by column *)
  ma : MaT -> nat -> nat -> R;     (* nv x nv matrices *)
  jcom : nat -> V3;                (* Jcom, column by column *)
  gv : GvT -> V6; gs : GsT -> R;
  ig : Inertia;
  oMf : nat -> SE3;                (* frame placements *)
  fcrb : nat -> nat -> V6          (* Fcrb[i].col(k) *)
}.

Record Data := mkData { rows : nat -> Row; gl : Glob }.

(* assignments *)
Definition put {T V : Type} (beq : T -> T -> bool) (f : T -> V) (t : T) (x : V) : T -> V :=
  fun t' => if beq t t' then x else f t'.
Definition putn {V : Type} (f : nat -> V) (i : nat) (x : V) : nat -> V := fun j => if Nat.eqb i j then x else f j.

Definition setMo r t x := mkRow (put MoT_beq (mo r) t x) (pl r) (yi r) (m6 r) (p3 r) (sc r) (jd r) (jU r) (jDinv r) (jUDinv r).
Definition setPl r t x := mkRow (mo r) (put PlT_beq (pl r) t x) (yi r) (m6 r) (p3 r) (sc r) (jd r) (jU r) (jDinv r) (jUDinv r).
Definition setYi r t x := mkRow (mo r) (pl r) (put YiT_beq (yi r) t x) (m6 r) (p3 r) (sc r) (jd r) (jU r) (jDinv r) (jUDinv r).
Definition setM6 r t x := mkRow (mo r) (pl r) (yi r) (put M6T_beq (m6 r) t x) (p3 r) (sc r) (jd r) (jU r) (jDinv r) (jUDinv r).
Definition setP3 r t x := mkRow (mo r) (pl r) (yi r) (m6 r) (put P3T_beq (p3 r) t x) (sc r) (jd r) (jU r) (jDinv r) (jUDinv r).
Definition setSc r t x := mkRow (mo r) (pl r) (yi r) (m6 r) (p3 r) (put ScT_beq (sc r) t x) (jd r) (jU r) (jDinv r) (jUDinv r).
Definition setJd r x := mkRow (mo r) (pl r) (yi r) (m6 r) (p3 r) (sc r) x (jU r) (jDinv r) (jUDinv r).
Definition setAba r u d ud := mkRow (mo r) (pl r) (yi r) (m6 r) (p3 r) (sc r) (jd r) u d ud.

Definition setVe g t x := mkGlob (put VeT_beq (ve g) t x) (co g) (ma g) (jcom g) (gv g) (gs g) (ig g) (oMf g) (fcrb g).
Definition setCo g t x := mkGlob (ve g) (put CoT_beq (co g) t x) (ma g) (jcom g) (gv g) (gs g) (ig g) (oMf g) (fcrb g).
Definition setMa g t x := mkGlob (ve g) (co g) (put MaT_beq (ma g) t x) (jcom g) (gv g) (gs g) (ig g) (oMf g) (fcrb g).
Definition setJcom g x := mkGlob (ve g) (co g) (ma g) x (gv g) (gs g) (ig g) (oMf g) (fcrb g).
Definition setGv g t x := mkGlob (ve g) (co g) (ma g) (jcom g) (put GvT_beq (gv g) t x) (gs g) (ig g) (oMf g) (fcrb g).
Definition setGs g t x := mkGlob (ve g) (co g) (ma g) (jcom g) (gv g) (put GsT_beq (gs g) t x) (ig g) (oMf g) (fcrb g).
Definition setIg g x := mkGlob (ve g) (co g) (ma g) (jcom g) (gv g) (gs g) x (oMf g) (fcrb g).
Definition setOMf g x := mkGlob (ve g) (co g) (ma g) (jcom g) (gv g) (gs g) (ig g) x (fcrb g).
Definition setFcrb g x := mkGlob (ve g) (co g) (ma g) (jcom g) (gv g) (gs g) (ig g) (oMf g) x.

Definition setRow (d : Data) (i : nat) (r : Row) : Data := mkData (putn (rows d) i r) (gl d).
Definition setGl (d : Data) (g : Glob) : Data := mkData (rows d) g.

(* loops over joints 1 .. njoints-1, upwards and downwards *)
Definition upward {St : Type} (m : Model) (step : St -> nat -> St) (s : St) : St := fold_left step (seq 1 (m_njoints m - 1)) s.
Definition downward {St : Type} (m : Model) (step : St -> nat -> St) (s : St) : St := fold_left step (rev (seq 1 (m_njoints m - 1))) s.

(* one step of a forward pass that writes the row of joint i and reads the rows of i and of its parent *)
Definition rowStep (m : Model) (F : nat -> Row -> Row -> Row) (d : Data) (i : nat) : Data :=
  setRow d i (F i (rows d i) (rows d (parent m i))).

(* data.hxx 20-194, the constructor Data(model): everything zero or identity, mass -1, a_gf[0] = -gravity, U = Identity.
   The joint datas are left at an arbitrary value (here the identity with an empty subspace): calc overwrites them. *)
Definition newRow (i : nat) (m : Model) : Row :=
  mkRow (fun t => match t, i with F_a_gf, 0 => v6opp (m_gravity m) | _, _ => v6zero end)
        (fun _ => se3_Identity) (fun _ => inertia_Zero) (fun _ => mkM6 m3zero m3zero m3zero m3zero)
        (fun _ => v3zero) (fun _ => (-1)%R) (mkJData se3_Identity [] v6zero v6zero) [] (fun _ _ => 0%R) [].
Definition newData (m : Model) : Data :=
  mkData (fun i => newRow i m)
    (mkGlob (fun _ _ => 0%R) (fun _ _ => v6zero)
            (fun t i j => match t with F_U => if Nat.eqb i j then 1%R else 0%R | _ => 0%R end)
            (fun _ => v3zero) (fun _ => v6zero) (fun _ => 0%R) inertia_Zero (fun _ => se3_Identity) (fun _ _ => v6zero)).

Ltac mem := cbn beta iota zeta delta [mo pl yi m6 p3 sc jd jU jDinv jUDinv ve co ma jcom gv gs ig oMf fcrb rows gl put
  setMo setPl setYi setM6 setP3 setSc setJd setAba setVe setCo setMa setJcom setGv setGs setIg setOMf setFcrb setRow setGl
  MoT_beq PlT_beq YiT_beq M6T_beq P3T_beq ScT_beq VeT_beq CoT_beq MaT_beq GvT_beq GsT_beq].

Lemma putn_same {V} (f : nat -> V) i x : putn f i x i = x.
Proof. unfold putn. now rewrite Nat.eqb_refl. Qed.
Lemma putn_other {V} (f : nat -> V) i j x : i <> j -> putn f i x j = f j.
Proof. intros H. unfold putn. now rewrite (proj2 (Nat.eqb_neq i j) H). Qed.

(* loop rules *)
Lemma fold_left_inv {St A} (step : St -> A -> St) (P : list A -> St -> Prop) (l : list A) :
  forall done s, P done s -> (forall done x s, P done s -> In x l -> P (done ++ [x]) (step s x)) ->
  P (done ++ l) (fold_left step l s).
Proof.
  induction l as [|a l IH]; intros done s H0 Hs; cbn [fold_left].
  - now rewrite app_nil_r.
  - replace (done ++ a :: l) with ((done ++ [a]) ++ l) by now rewrite <- app_assoc.
    apply IH; [apply Hs; [exact H0 | now left] | intros; apply Hs; [assumption | now right]].
Qed.

(* upward: Inv k s holds when joints < k have been processed *)
Lemma upward_inv {St} m (step : St -> nat -> St) (Inv : nat -> St -> Prop) s :
  1 <= m_njoints m -> Inv 1 s -> (forall i s, 0 < i < m_njoints m -> Inv i s -> Inv (i + 1) (step s i)) ->
  Inv (m_njoints m) (upward m step s).
Proof.
  intros Hn H0 Hs. unfold upward.
  assert (G : forall k s, k < m_njoints m -> Inv (m_njoints m - k) s -> (0 < m_njoints m - k) ->
     Inv (m_njoints m) (fold_left step (seq (m_njoints m - k) k) s)).
  { induction k as [|k IH]; intros s' Hk HI Hp; cbn [seq fold_left].
    - now rewrite Nat.sub_0_r in HI.
    - replace (S (m_njoints m - S k)) with (m_njoints m - k) by lia.
      apply IH; try lia.
      replace (m_njoints m - k) with ((m_njoints m - S k) + 1) by lia.
      apply Hs; [lia | exact HI]. }
  specialize (G (m_njoints m - 1) s). replace (m_njoints m - (m_njoints m - 1)) with 1 in G by lia.
  apply G; auto; lia.
Qed.

(* downward: Inv k s holds when joints >= k have been processed *)
Lemma downward_inv {St} m (step : St -> nat -> St) (Inv : nat -> St -> Prop) s :
  1 <= m_njoints m -> Inv (m_njoints m) s ->
  (forall i s, 0 < i < m_njoints m -> Inv (i + 1) s -> Inv i (step s i)) ->
  Inv 1 (downward m step s).
Proof.
  intros Hn H0 Hs. unfold downward.
  assert (G : forall k s, k < m_njoints m -> Inv (k + 1) s -> Inv 1 (fold_left step (rev (seq 1 k)) s)).
  { induction k as [|k IH]; intros s' Hk HI.
    - exact HI.
    - rewrite seq_S, rev_app_distr. cbn [rev app fold_left].
      apply IH; [lia|]. replace (k + 1) with (1 + k) by lia. apply Hs; [lia|].
      replace (1 + k + 1) with (S k + 1) by lia. exact HI. }
  apply G; [lia|]. now replace (m_njoints m - 1 + 1) with (m_njoints m) by lia.
Qed.

(* a forward pass: each row is computed from its old contents and from the final row of its parent *)
Lemma upward_rows m F d :
  wellFormed m ->
  let d' := upward m (rowStep m F) d in
  gl d' = gl d /\ rows d' 0 = rows d 0 /\
  forall i, 0 < i < m_njoints m -> rows d' i = F i (rows d i) (rows d' (parent m i)).
Proof.
  intros W. cbv zeta.
  pose (Inv := fun k (s : Data) => gl s = gl d /\ rows s 0 = rows d 0 /\
     (forall i, k <= i -> rows s i = rows d i) /\
     (forall i, 0 < i < k -> rows s i = F i (rows d i) (rows s (parent m i)))).
  assert (H : Inv (m_njoints m) (upward m (rowStep m F) d)).
  { apply upward_inv.
    - apply (wf_n m W).
    - unfold Inv; split; [|split; [|split]]; auto; intros; lia.
    - intros i s Hi (Hg & H0 & Hr & He). pose proof (wf_parent m W i Hi) as Hp.
      unfold Inv, rowStep, setRow; cbn [gl rows].
      split; [exact Hg|]. split; [rewrite putn_other by lia; exact H0|]. split.
      + intros j Hj. rewrite putn_other by lia. apply Hr; lia.
      + intros j Hj. destruct (Nat.eq_dec j i) as [->|Hn].
        * rewrite putn_same, putn_other by lia. now rewrite (Hr i) by lia.
        * assert (parent m j < j) by (apply (wf_parent m W); lia).
          rewrite !putn_other by lia. apply He; lia. }
  destruct H as (A & B & _ & C). auto.
Qed.

(* a forward pass that also writes data outside the rows, possibly reading the rows *)
Definition rowStepG (m : Model) (F : nat -> Row -> Row -> Row) (G : nat -> Row -> Glob -> Glob) (d : Data) (i : nat) : Data :=
  let r := F i (rows d i) (rows d (parent m i)) in mkData (putn (rows d) i r) (G i r (gl d)).

Lemma upward_rowsG m F G d :
  wellFormed m ->
  let d' := upward m (rowStepG m F G) d in
  rows d' 0 = rows d 0 /\
  (forall i, 0 < i < m_njoints m -> rows d' i = F i (rows d i) (rows d' (parent m i))) /\
  gl d' = upward m (fun g i => G i (rows d' i) g) (gl d).
Proof.
  intros W. cbv zeta.
  pose (Inv := fun k (s : Data) => rows s 0 = rows d 0 /\
     (forall i, k <= i -> rows s i = rows d i) /\
     (forall i, 0 < i < k -> rows s i = F i (rows d i) (rows s (parent m i))) /\
     gl s = fold_left (fun g i => G i (rows s i) g) (seq 1 (k - 1)) (gl d)).
  assert (H : Inv (m_njoints m) (upward m (rowStepG m F G) d)).
  { apply upward_inv.
    - apply (wf_n m W).
    - unfold Inv; split; [|split; [|split]]; auto; intros; lia.
    - intros i s Hi (H0 & Hr & He & Hg). pose proof (wf_parent m W i Hi) as Hp.
      unfold Inv, rowStepG; cbn [gl rows].
      split; [rewrite putn_other by lia; exact H0|]. split; [|split].
      + intros j Hj. rewrite putn_other by lia. apply Hr; lia.
      + intros j Hj. destruct (Nat.eq_dec j i) as [->|Hn].
        * rewrite putn_same, putn_other by lia. now rewrite (Hr i) by lia.
        * assert (parent m j < j) by (apply (wf_parent m W); lia).
          rewrite !putn_other by lia. apply He; lia.
      + replace (i + 1 - 1) with (S (i - 1)) by lia. rewrite seq_S, fold_left_app. cbn [fold_left].
        replace (1 + (i - 1)) with i by lia. rewrite putn_same.
        rewrite Hg. f_equal.
        set (r := F i (rows s i) (rows s (parent m i))).
        clear Hg. clearbody r.
        assert (E : forall l g, (forall x, In x l -> x <> i) ->
          fold_left (fun g0 i0 => G i0 (rows s i0) g0) l g = fold_left (fun g0 i0 => G i0 (putn (rows s) i r i0) g0) l g).
        { induction l as [|a l IH]; intros g Hl; [reflexivity|]. cbn [fold_left].
          rewrite putn_other by (apply not_eq_sym, Hl; now left). apply IH. intros; apply Hl; now right. }
        apply E. intros x Hx. apply in_seq in Hx. lia. }
  destruct H as (A & _ & B & C). auto.
Qed.

(* induction from the root *)
Lemma tree_ind m (P : nat -> Prop) : wellFormed m -> P 0 ->
  (forall i, 0 < i < m_njoints m -> P (parent m i) -> P i) -> forall i, i < m_njoints m -> P i.
Proof.
  intros W H0 Hs i. induction i as [i IH] using (well_founded_induction lt_wf). intros Hi.
  destruct (Nat.eq_dec i 0) as [->|Hn]; [exact H0|].
  apply Hs; [lia|]. pose proof (wf_parent m W i ltac:(lia)). apply IH; lia.
Qed.
