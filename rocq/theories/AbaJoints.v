(* calc_aba and SE3actOn compute what their names say. *)
Require Import Reals List Arith Lia Lra Bool.
From Verif Require Import Vec3 Spatial Inertia Joints Spec_Joints JointFacts Sums Spec_Aba DynFacts Aba AbaCore.
Import ListNotations.
Local Open Scope nat_scope.

Lemma v6dot_R a b : v6dot a b = (vx (lin a) * vx (lin b) + vy (lin a) * vy (lin b) + vz (lin a) * vz (lin b) + (vx (ang a) * vx (ang b) + vy (ang a) * vy (ang b) + vz (ang a) * vz (ang b)))%R.
Proof. ssimp. ring. Qed.

Lemma abaU1_spec j q I : abaU1 j (calcS1 j q) I = map (m6vec I) (calcS1 j q).
Proof.
  destruct j; cbn [abaU1 calcS1 map]; unfold colLin, colAng, m6Lin, m6Ang, m6col; cbn [Nat.ltb Nat.leb Nat.sub Nat.add]; unfold colLin, colAng, angCol, linCol, m3col;
    repeat match goal with |- (_ :: _) = (_ :: _) => f_equal end; try (match goal with axis : nat |- _ => destruct axis as [|[|axis]] end); cbn [ang]; sring.
Qed.
Lemma angCol_dot a u : v6dot (angCol a) u = v3dot a (ang u). Proof. unfold angCol. ssimp. ring. Qed.
Lemma linCol_dot a u : v6dot (linCol a) u = v3dot a (lin u). Proof. unfold linCol. ssimp. ring. Qed.
Lemma helCol_dot a h u : v6dot (mkV6 (v3scale h a) a) u = (v3dot a (ang u) + h * v3dot a (lin u))%R. Proof. ssimp. ring. Qed.
Lemma unitAxis_dot k u : v3dot (unitAxis k) u = v3get u k. Proof. destruct k as [|[|k]]; unfold unitAxis, v3get; ssimp; ring. Qed.
Lemma abaStU1_spec j q U k l : j <> JPlanar -> length U = length (calcS1 j q) -> k < length (calcS1 j q) -> l < length (calcS1 j q) ->
  abaStU1 j (calcS1 j q) U k l = v6dot (nth k (calcS1 j q) v6zero) (nth l U v6zero).
Proof.
  intros Hj _ Hk Hl. destruct j; try congruence; cbn [calcS1 length] in Hk; cbn [abaStU1 calcS1]; generalize (nth l U v6zero); clear Hl U l Hj; intros u;
    repeat match goal with |- context [mkV3 ?a ?b ?c] => generalize (mkV3 a b c); intros end;
    repeat (destruct k as [|k]; [cbn [nth]; rewrite ?helCol_dot, ?angCol_dot, ?linCol_dot, ?unitAxis_dot; reflexivity|]); exfalso; lia.
Qed.
Lemma planarT q U k l : l < 3 -> abaStU1 JPlanar (calcS1 JPlanar q) U k l = v6dot (nth l (calcS1 JPlanar q) v6zero) (nth k U v6zero).
Proof.
  intros Hl. cbn [abaStU1 calcS1]. generalize (nth k U v6zero). intros u.
  destruct l as [|[|[|l]]]; [| | |lia]; cbn [nth]; rewrite ?angCol_dot, ?linCol_dot, unitAxis_dot; reflexivity.
Qed.
Lemma positiveM_ext n A B : (forall k l, k < n -> l < n -> A k l = B k l) -> positiveM n A -> positiveM n B.
Proof.
  intros E P x Hx. specialize (P x Hx). erewrite sumN_ext; [exact P|]. intros k Hk. cbv beta. f_equal. apply sumN_ext. intros l Hl. now rewrite E.
Qed.
Lemma symmetricM_ext n A B : (forall k l, k < n -> l < n -> A k l = B k l) -> symmetricM n A -> symmetricM n B.
Proof. intros E S k l Hk Hl. rewrite <- !E by assumption. now apply S. Qed.
Lemma identity_ext n A B C : (forall k l, k < n -> l < n -> A k l = B k l) -> identityM n (matMul n A C) -> identityM n (matMul n B C).
Proof. intros E I k l Hk Hl. rewrite <- (I k l Hk Hl). unfold matMul. apply sumN_ext. intros j Hj. now rewrite E. Qed.
Lemma positive_diag n A : positiveM n A -> forall k, k < n -> (0 < A k k)%R.
Proof.
  intros P k Hk. specialize (P (unitv k)). rewrite (sumN_ext n _ (fun j => if k =? j then A k k else 0%R)) in P.
  - rewrite (sumN_delta n k (fun _ => A k k)) in P by exact Hk. apply P. exists k. split; [exact Hk|]. unfold unitv. rewrite Nat.eqb_refl. lra.
  - intros j Hj. unfold unitv at 1. destruct (Nat.eqb_spec k j) as [<-|]; [|ring]. rewrite Rmult_1_l.
    rewrite <- (sumN_delta n k (fun l => A k l) Hk). apply sumN_ext. intros l Hl. unfold unitv. destruct (k =? l); ring.
Qed.

Section CalcAba.
Variable inv : nat -> (nat -> nat -> R) -> nat -> nat -> R.
Hypothesis HI : invertsPD inv.
Definition notMimicJ (j : Joint) : Prop := match j with JMimic _ _ _ => False | _ => True end.
Lemma calcAba_spec j q v ar I old : notMimicJ j ->
  let S := jS (jcalc j q v) in let w := calcAba inv j S ar I old in
  fst (fst w) = map (m6vec I) S /\ snd w = colsMul (map (m6vec I) S) (snd (fst w)) /\
  (symmetricM (length S) (StU S (map (m6vec I) S) ar) -> positiveM (length S) (StU S (map (m6vec I) S) ar) ->
   identityM (length S) (matMul (length S) (StU S (map (m6vec I) S) ar) (snd (fst w)))).
Proof.
  intros NMj. destruct j as [j| |lj]; [| contradiction |].
  - change (jS (jcalc (JSimple j) q v)) with (calcS1 j q). cbv zeta. cbn [calcAba fst snd].
    rewrite abaU1_spec. split; [reflexivity|]. split; [reflexivity|]. intros Sy Po. rewrite map_length.
    set (S := calcS1 j q) in *. set (U := map (m6vec I) S) in *.
    assert (LU : length U = length S) by (unfold U; apply map_length).
    assert (E : forall k l, k < length S -> l < length S -> StU S U ar k l = abaD1 j S U ar k l).
    { destruct (match j with JPlanar => true | _ => false end) eqn:Ej.
      - intros k l Hk Hl. rewrite (Sy k l Hk Hl). destruct j; try discriminate. unfold abaD1, StU.
        pose proof (planarT q U k l Hl) as EE. fold S in EE. rewrite EE, (Nat.eqb_sym k l). destruct (Nat.eqb_spec l k) as [->|]; reflexivity.
      - intros k l Hk Hl. unfold abaD1, StU, S. rewrite abaStU1_spec; [reflexivity | intros ->; discriminate | exact LU | exact Hk | exact Hl]. }
    destruct (oneDof j) eqn:E1.
    + assert (L1 : length S = 1) by (unfold S; destruct j; try discriminate; reflexivity).
      pose proof (positive_diag _ _ Po 0 ltac:(lia)) as P0. rewrite <- (E 0 0) by lia. rewrite L1. intros k l Hk Hl. replace k with 0 by lia. replace l with 0 by lia.
      unfold matMul. cbn [sumN Nat.eqb]. field. lra.
    + apply (identity_ext _ (abaD1 j S U ar)); [intros; symmetry; now apply E|]. apply HI.
      * apply (symmetricM_ext _ (StU S U ar)); [exact E | exact Sy].
      * apply (positiveM_ext _ (StU S U ar)); [exact E | exact Po].
  - cbv zeta. cbn [calcAba fst snd]. split; [reflexivity|]. split; [reflexivity|]. intros Sy Po. rewrite map_length. apply HI; assumption.
Qed.
End CalcAba.

(* aba.hxx SE3actOn: the matrix is moved to another frame, if it is symmetric *)
Lemma sym6_blocks A : sym6 A -> mAL A = m3tr (mLA A) /\ mLL A = m3tr (mLL A) /\ mAA A = m3tr (mAA A).
Proof.
  intros H.
  assert (E : m6tr A = A).
  { apply m6_ext_vec. intros v. 
    assert (X : forall x, v6dot x (m6vec (m6tr A) v) = v6dot x (m6vec A v)).
    { intros x. rewrite (H x v), <- m6dot_tr, v6dot_comm. reflexivity. }
    revert X. generalize (m6vec (m6tr A) v) (m6vec A v). intros a b X.
    pose proof (X (mkV6 (mkV3 1 0 0) v3zero)) as X0. pose proof (X (mkV6 (mkV3 0 1 0) v3zero)) as X1. pose proof (X (mkV6 (mkV3 0 0 1) v3zero)) as X2.
    pose proof (X (mkV6 v3zero (mkV3 1 0 0))) as X3. pose proof (X (mkV6 v3zero (mkV3 0 1 0))) as X4. pose proof (X (mkV6 v3zero (mkV3 0 0 1))) as X5.
    rewrite !v6dot_R in *. destruct a as [[a1 a2 a3] [a4 a5 a6]], b as [[b1 b2 b3] [b4 b5 b6]]. cbn in *. f_equal; f_equal; lra. }
  destruct A as [A B C D]. unfold m6tr in E. cbn [mLL mLA mAL mAA] in *. injection E as E1 E2 E3 E4. rewrite E1, E3, E4. auto.
Qed.
Lemma se3ActOn_spec M A x y : sym6 A -> v6dot x (m6vec (se3ActOn M A) y) = v6dot (motion_actInv M x) (m6vec A (motion_actInv M y)).
Proof.
  intros H. destruct (sym6_blocks A H) as (H1 & H2 & H3). rewrite act_dot_dual. f_equal.
  destruct A as [LL LA AL AA]. cbn [mLL mLA mAL mAA] in *. subst AL. destruct M as [R t], y as [yl ya].
  unfold se3ActOn, m6vec, force_act, motion_actInv. cbn [mLL mLA mAL mAA rot trans lin ang].
  assert (HA : m3mul (m3mul R LL) (m3tr R) = m3tr (m3mul (m3mul R LL) (m3tr R))) by (rewrite !m3tr_mul, m3tr_tr, <- H2, m3mul_assoc; reflexivity).
  rewrite !m3vec_add_r, <- !m3vec_mul.
  assert (HB : m3mul (m3mul R (m3tr LA)) (m3tr R) = m3tr (m3mul (m3mul R LA) (m3tr R))) by (rewrite !m3tr_mul, m3tr_tr, m3mul_assoc; reflexivity).
  rewrite HB. revert HA. generalize (m3mul (m3mul R LL) (m3tr R)) (m3mul (m3mul R LA) (m3tr R)) (m3mul (m3mul R AA) (m3tr R)). clear. intros A B D HA.
  destruct A as [a00 a01 a02 a10 a11 a12 a20 a21 a22]. unfold m3tr in HA. cbn in HA. injection HA; intros; subst. clear.
  unfold addRowsCross, colsCross, m3ofcols, m3col. sring.
Qed.
