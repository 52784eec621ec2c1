(* The three passes of the articulated-body algorithm solve the equations of motion. *)
Require Import Reals List Arith Lia Lra Bool.
From Verif Require Import Vec3 Spatial Inertia InertiaFacts Joints JointFacts Model Spec_Model ModelFacts ModelTree ModelFacts2 Sums Data Spec_Kin Kinematics KinFacts TreeSums Spec_Dyn DynFacts DynFacts2 Spec_Mass MassFacts Rnea Crba Aba CrbaFacts Spec_Aba AbaCore AbaFacts AbaJoints.
Import ListNotations.
Local Open Scope nat_scope.

Section Gen.
Variable m : Model.
Hypothesis W : wellFormed m.
Hypothesis NM : noMimic m.
Variables (YT : M6T) (FT AT : MoT).
Hypothesis FA : FT <> AT.
Variables (cols : nat -> list V6) (XA : nat -> M6 -> M6) (Xf up : nat -> V6 -> V6).
Variable calc : nat -> M6 -> list V6 * (nat -> nat -> R) * list V6.
Variable post : nat -> Row -> Row.
Hypothesis Hpost : forall i r, mo (post i r) AT = mo r AT.
Hypothesis HC : forall i, 0 < i < m_njoints m -> length (cols i) = nvOf m i.
Hypothesis up0 : forall i, up i v6zero = v6zero.
Hypothesis XAspec : forall i A x y, 0 < i < m_njoints m -> sym6 A -> v6dot x (m6vec (XA i A) y) = v6dot (up i x) (m6vec A (up i y)).
Hypothesis Xfspec : forall i x f, 0 < i < m_njoints m -> v6dot x (Xf i f) = v6dot (up i x) f.
Hypothesis calcspec : forall i A, 0 < i < m_njoints m ->
  let S := cols i in let w := calc i A in
  fst (fst w) = map (m6vec A) S /\ snd w = colsMul (map (m6vec A) S) (snd (fst w)) /\
  (symmetricM (length S) (StU S (map (m6vec A) S) (armSel m i)) -> positiveM (length S) (StU S (map (m6vec A) S) (armSel m i)) ->
   identityM (length S) (matMul (length S) (StU S (map (m6vec A) S) (armSel m i)) (snd (fst w)))).
Variable s0 : Data.
Hypothesis I0sym : forall i, 0 < i < m_njoints m -> sym6 (m6 (rows s0 i) YT).
Hypothesis PD : forall V w, V 0 = v6zero -> (forall i, 0 < i < m_njoints m -> V i = v6add (Smul (cols i) (w i)) (up i (V (parent m i)))) ->
  (exists i k, 0 < i < m_njoints m /\ k < nvOf m i /\ w i k <> 0%R) ->
  (0 < sumN (m_njoints m) (fun i => if 0 <? i then v6dot (V i) (m6vec (m6 (rows s0 i) YT) (V i)) else 0) +
       sumN (m_njoints m) (fun i => if 0 <? i then sumN (nvOf m i) (fun k => armSel m i k * w i k * w i k) else 0))%R.

Lemma aba_passes :
  let s1 := downward m (genBack m YT FT AT cols XA Xf calc) s0 in
  let s2 := upward m (genFwd m AT cols up post) s1 in
  let ddq := ve (gl s2) F_ddq in
  (mo (rows s2 0) AT = mo (rows s1 0) AT) /\
  (forall i, 0 < i < m_njoints m -> mo (rows s2 i) AT = v6add (v6add (mo (rows s0 i) AT) (up i (mo (rows s2 (parent m i)) AT))) (Smul (cols i) (shift (idx_v m i) ddq))) /\
  (forall V z, V 0 = v6zero -> (forall i, 0 < i < m_njoints m -> V i = v6add (Smul (cols i) (shift (idx_v m i) z)) (up i (V (parent m i)))) ->
   (bodies m (fun i => v6dot (V i) (v6add (m6vec (m6 (rows s0 i) YT) (mo (rows s2 i) AT)) (mo (rows s0 i) FT))) + armaturePower m ddq z
    = dotv (m_nv m) (ve (gl s0) F_u) z)%R).
Proof.
  intros s1 s2 ddq.
  assert (HL : forall i A, 0 < i < m_njoints m -> length (snd (calc i A)) = nvOf m i).
  { intros i A Hi. destruct (calcspec i A Hi) as (_ & -> & _). now rewrite colsMul_length, map_length, HC. }
  destruct (genBack_done m W NM YT FT AT FA cols XA Xf calc HL s0) as (AP & [K1 K2] & DN). fold s1 in K1, K2, DN.
  destruct (genFwd_done m W NM AT cols up post HC Hpost s1) as (G0 & G1). fold s2 in G0, G1. fold ddq in G1.
  assert (EA : forall i, mo (rows s1 i) AT = mo (rows s0 i) AT) by (intros i; apply K2; congruence).
  split; [now rewrite G0|].
  assert (Hacc : forall i, 0 < i < m_njoints m -> mo (rows s2 i) AT = v6add (v6add (mo (rows s0 i) AT) (up i (mo (rows s2 (parent m i)) AT))) (Smul (cols i) (shift (idx_v m i) ddq))).
  { intros i Hi. destruct (G1 i Hi) as [_ ->]. now rewrite EA. }
  split; [exact Hacc|].
  pose (A := fun i => fst (AP i)). pose (P := fun i => snd (AP i)).
  pose (Di := fun i => snd (fst (calc i (A i)))).
  pose (U := fun i => map (m6vec (A i)) (cols i)).
  pose (UD := fun i => colsMul (U i) (Di i)).
  pose (Ia := fun i => subOuter (A i) (UD i) (U i)).
  assert (F : forall i, 0 < i < m_njoints m ->
     (forall x y, v6dot x (m6vec (A i) y) = (v6dot x (m6vec (m6 (rows s0 i) YT) y) +
        sumN (m_njoints m) (fun c => if childb m i c then v6dot x (m6vec (XA c (m6 (rows s1 c) YT)) y) else 0))%R) /\
     (forall x, v6dot x (P i) = (v6dot x (mo (rows s0 i) FT) + sumN (m_njoints m) (fun c => if childb m i c then v6dot x (Xf c (mo (rows s1 c) FT)) else 0))%R) /\
     jDinv (rows s1 i) = Di i /\ jUDinv (rows s1 i) = UD i /\
     (forall k, k < nvOf m i -> ve (gl s1) F_u (idx_v m i + k) = (ve (gl s0) F_u (idx_v m i + k) - v6dot (nth k (cols i) v6zero) (P i))%R) /\
     (0 < parent m i -> m6 (rows s1 i) YT = Ia i /\
       mo (rows s1 i) FT = v6add (P i) (v6add (m6vec (Ia i) (mo (rows s0 i) AT)) (Smul (UD i) (shift (idx_v m i) (ve (gl s1) F_u)))))).
  { intros i Hi. pose proof (DN i Hi) as D0. unfold done in D0. unfold A, P, Di, UD, U, Ia, UD, U, Di, A. destruct (AP i) as [Ai Pi] eqn:EP. cbn [fst snd].
    destruct D0 as (D1 & D2 & D3 & D4 & D5 & D6 & D7).
    pose proof (calcspec i Ai Hi) as CS. cbv zeta in CS. destruct CS as (C1 & C2 & _).
    split; [exact D1|]. split; [exact D2|]. split; [exact D4|]. split; [now rewrite D5|]. split; [exact D6|].
    intros Hp. destruct (D7 Hp) as [Y1 Y2].
    assert (EY : m6 (rows s1 i) YT = subOuter Ai (colsMul (map (m6vec Ai) (cols i)) (snd (fst (calc i Ai)))) (map (m6vec Ai) (cols i))) by (rewrite Y1, C1; now rewrite C2 at 1).
    split; [exact EY|]. rewrite Y2, EY, D5. now rewrite C2 at 1. }
  intros V z V0 HV.
  pose proof (aba_core m W up cols (fun i => m6 (rows s0 i) YT) (armSel m) A Di up0 I0sym) as Core. cbv beta zeta in Core.
  assert (ch : forall i c, childb m i c = true -> 0 < c /\ parent m c = i).
  { intros i c E. unfold childb in E. apply andb_prop in E. destruct E as [E1 E2]. apply Nat.ltb_lt in E1. apply Nat.eqb_eq in E2. auto. }
  specialize (Core ltac:(
    intros i x y Hi Sc; rewrite (proj1 (F i Hi)); f_equal; apply sumN_ext; intros c Hc; destruct (childb m i c) eqn:E; [|reflexivity];
    destruct (ch i c E) as [E1 E2]; destruct (F c ltac:(lia)) as (_ & _ & _ & _ & _ & Fc); rewrite (proj1 (Fc ltac:(lia)));
    apply XAspec; [lia | exact (Sc c Hc E)])).
  specialize (Core ltac:(intros i Hi; apply (calcspec i (A i) Hi))).
  specialize (Core ltac:(
    intros V' w' V0' HV' (i & k & Hi & Hk & Hn); rewrite HC in Hk by exact Hi;
    pose proof (PD V' w' V0' HV' (ex_intro _ i (ex_intro _ k (conj Hi (conj Hk Hn))))) as HP;
    rewrite (sumN_ext (m_njoints m) (fun i => if 0 <? i then sumN (length (cols i)) (fun k => armSel m i k * w' i k * w' i k)%R else 0%R)
      (fun i => if 0 <? i then sumN (nvOf m i) (fun k => armSel m i k * w' i k * w' i k)%R else 0%R)); [exact HP|];
    intros j Hj; destruct (Nat.ltb_spec 0 j); [rewrite HC by lia; reflexivity | reflexivity])).
  specialize (Core P (fun i => mo (rows s0 i) FT) (fun i => mo (rows s0 i) AT) (fun i => mo (rows s2 i) AT)
    (fun i => shift (idx_v m i) (ve (gl s1) F_u)) (fun i => shift (idx_v m i) (ve (gl s0) F_u)) (fun i => shift (idx_v m i) ddq)).
  specialize (Core ltac:(
    intros i x Hi; rewrite (proj1 (proj2 (F i Hi))); f_equal; apply sumN_ext; intros c Hc; destruct (childb m i c) eqn:E; [|reflexivity];
    destruct (ch i c E) as [E1 E2]; destruct (F c ltac:(lia)) as (_ & _ & _ & _ & _ & Fc); rewrite (Xfspec c) by lia;
    f_equal; apply (proj2 (Fc ltac:(lia))))).
  specialize (Core ltac:(intros i k Hi Hk; pose proof (HC i Hi) as Lc; rewrite Lc in Hk; apply (F i Hi); exact Hk)).
  specialize (Core ltac:(
    intros i k Hi Hk; pose proof (HC i Hi) as Lc; rewrite Lc in Hk |- *; destruct (F i Hi) as (_ & _ & F3 & F4 & _); unfold shift at 1;
    rewrite (proj1 (G1 i Hi) k Hk), EA, F3, F4; reflexivity)).
  specialize (Core Hacc V (fun i => shift (idx_v m i) z) V0 HV).  cbv beta in Core.
  rewrite (bodies_if m W). unfold armaturePower, dotv. rewrite !(dof_sum m W NM).
  assert (LE : forall f : nat -> nat -> R, sumN (m_njoints m) (fun i => if 0 <? i then sumN (length (cols i)) (f i) else 0%R) = sumN (m_njoints m) (fun i => if 0 <? i then sumN (nvOf m i) (f i) else 0%R)).
  { intros f. apply sumN_ext. intros i Hi. destruct (Nat.ltb_spec 0 i); [rewrite HC by lia; reflexivity | reflexivity]. }
  rewrite (LE (fun i k => armSel m i k * shift (idx_v m i) ddq k * shift (idx_v m i) z k)%R) in Core.
  rewrite (LE (fun i k => shift (idx_v m i) (ve (gl s0) F_u) k * shift (idx_v m i) z k)%R) in Core. exact Core.
Qed.
End Gen.
