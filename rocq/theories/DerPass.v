(* The backward pass of the derivatives of inverse dynamics, for one of its matrices. *)
Require Import Reals List Arith ZArith Lia Lra Bool.
From Verif Require Import Vec3 Spatial Inertia InertiaFacts SpatialFacts Joints Model Spec_Model ModelFacts ModelTree ModelFacts2 Sums Data Kinematics Spec_Kin Spec_Mass KinFacts KinFacts2 Spec_Dyn TreeSums MassFacts Crba CrbaFacts CrbaFacts2 CholFacts4 DataX Coriolis DerSums CoriolisFacts.
Import ListNotations.
Local Open Scope nat_scope.
Local Open Scope bool_scope.

Section Der.
Variable eps : R.
Variable m : Model.
Hypothesis Bt : Built eps m.
Let W : wellFormed m := Built_wf eps m Bt.
Let T : treeInv m := Built_tree eps m Bt.
Hypothesis Vm : validModel m.
Hypothesis NM : noMimic m.
Hypothesis DF : depthFirst m.
Hypothesis He : (0 < eps)%R.

(* the rows of a subtree, its root excluded *)
Lemma within_below i j c : 0 < i < m_njoints m -> 0 < j < m_njoints m -> c < nvOf m j ->
  within (idx_v m i + nvOf m i) (Z.to_nat (nvSubtree m i) - nvOf m i) (idx_v m j + c) = anc m i j && negb (j =? i).
Proof.
  intros Hi Hj Hc. pose proof (within_subtree m W T Vm NM DF i j c Hi Hj Hc) as H1. pose proof (within_own m W NM i j c Hi Hj Hc) as H2.
  rewrite <- H1, Nat.eqb_sym, <- H2. unfold within. 
  destruct (Nat.leb_spec (idx_v m i) (idx_v m j + c)), (Nat.ltb_spec (idx_v m j + c) (idx_v m i + nvOf m i)), (Nat.ltb_spec (idx_v m j + c) (idx_v m i + Z.to_nat (nvSubtree m i))),
    (Nat.leb_spec (idx_v m i + nvOf m i) (idx_v m j + c)), (Nat.ltb_spec (idx_v m j + c) (idx_v m i + nvOf m i + (Z.to_nat (nvSubtree m i) - nvOf m i))); cbn; try reflexivity; exfalso; try lia.
Qed.
Lemma anc_strict i j : 0 < i -> 0 < j < m_njoints m -> anc m i (parent m j) = anc m i j && negb (i =? j).
Proof.
  intros Hi Hj. pose proof (wf_parent _ W j Hj) as Hp. destruct (anc m i j) eqn:A; cbn [andb].
  - destruct (Nat.eqb_spec i j) as [<-|Hn]; cbn [negb].
    + destruct (anc m i (parent m i)) eqn:B; [|reflexivity]. apply (anc_le m W T) in B; lia.
    + rewrite (anc_step m W T i j Hj) in A. destruct (Nat.eqb_spec i j); [congruence | exact A].
  - destruct (anc m i (parent m j)) eqn:B; [|reflexivity]. rewrite (anc_step m W T i j Hj), B in A. now rewrite orb_true_r in A.
Qed.

Section Pass.
Context {St : Type}.
Variables (step : St -> nat -> St) (Yo : St -> nat -> Inertia) (Do : St -> nat -> M6) (Oo : St -> nat -> V6) (Fa Ft Fx : St -> nat -> V6) (Ea Eo : St -> nat -> nat -> R) (To : St -> vec) (s0 : St).
Variables (J V A : nat -> V6) (Ys : nat -> Inertia) (Ds : nat -> M6) (Os : nat -> V6) (fx : bool) (KI : St -> Prop).
Hypothesis KI0 : KI s0.
Hypothesis KIs : forall i s, 0 < i < m_njoints m -> KI s -> KI (step s i).
Hypothesis Y0 : forall b, 0 < b < m_njoints m -> Yo s0 b = Ys b /\ regularMass eps (mass (Ys b)).
Hypothesis D0 : forall b, 0 < b < m_njoints m -> Do s0 b = Ds b.
Hypothesis O0 : forall b, 0 < b < m_njoints m -> Oo s0 b = Os b.
Hypothesis stY : forall i s j, 0 < i < m_njoints m -> 0 < j -> KI s -> Yo (step s i) j = if parent m i =? j then inertia_plus eps (Yo s j) (Yo s i) else Yo s j.
Hypothesis stD : forall i s j, 0 < i < m_njoints m -> 0 < j -> KI s -> Do (step s i) j = if parent m i =? j then m6add (Do s j) (Do s i) else Do s j.
Hypothesis stO : forall i s j, 0 < i < m_njoints m -> 0 < j -> KI s -> Oo (step s i) j = if parent m i =? j then v6add (Oo s j) (Oo s i) else Oo s j.
Hypothesis stFa : forall i s k, 0 < i < m_njoints m -> KI s -> Fa (step s i) k = if within (idx_v m i) (nvOf m i) k then inertia_mul (Yo s i) (J k) else Fa s k.
Hypothesis stFt : forall i s k, 0 < i < m_njoints m -> KI s -> Ft (step s i) k = if within (idx_v m i) (nvOf m i) k then m6vec (m6tr (Do s i)) (J k) else Ft s k.
Let base s i k : V6 := v6add (m6vec (Do s i) (V k)) (inertia_mul (Yo s i) (A k)).
Hypothesis stFx : forall i s c X, 0 < i < m_njoints m -> c < nvOf m i -> KI s -> v6dot X (Fx (step s i) (idx_v m i + c)) = v6dot X (v6add (base s i (idx_v m i + c)) (if fx then force_cross (J (idx_v m i + c)) (Oo s i) else v6zero)).
Hypothesis stFx' : forall i s k, 0 < i < m_njoints m -> KI s -> within (idx_v m i) (nvOf m i) k = false -> Fx (step s i) k = Fx s k.
Hypothesis stE : forall i s k l, 0 < i < m_njoints m -> KI s -> Eo (step s i) k l =
    if within (idx_v m i) (nvOf m i) k && within (idx_v m i) (Z.to_nat (nvSubtree m i)) l then
      (if within (idx_v m i) (nvOf m i) l then v6dot (J k) (base s i l) else v6dot (J k) (Fx s l))
    else if within (idx_v m i + nvOf m i) (Z.to_nat (nvSubtree m i) - nvOf m i) k && within (idx_v m i) (nvOf m i) l then Rplus (v6dot (Fa s k) (A l)) (v6dot (Ft s k) (V l))
    else Eo s k l.
Hypothesis stEa : forall i s k l, 0 < i < m_njoints m -> KI s -> Ea (step s i) k l =
    if within (idx_v m i) (nvOf m i) k && within (idx_v m i) (Z.to_nat (nvSubtree m i)) l then v6dot (J k) (Fa (step s i) l) else Ea s k l.
Hypothesis stT : forall i s k, 0 < i < m_njoints m -> KI s -> To (step s i) k = if within (idx_v m i) (nvOf m i) k then v6dot (J k) (Oo s i) else To s k.

Definition derEntry i j k l : R := Rplus (common m i j (fun b => v6dot (J k) (v6add (m6vec (Ds b) (V l)) (inertia_mul (Ys b) (A l)))))
  (if fx && anc m i (parent m j) then subSum m j (fun b => v6dot (J k) (force_cross (J l) (Os b))) else 0%R).

Lemma fcross_add_r x f g : force_cross x (v6add f g) = v6add (force_cross x f) (force_cross x g).
Proof. sring. Qed.
Lemma subSum_fcross i X x f : (forall Z, v6dot Z f = subSum m i (fun b => v6dot Z (Os b))) -> v6dot X (force_cross x f) = subSum m i (fun b => v6dot X (force_cross x (Os b))).
Proof. intros H. rewrite cross_dot_swap, H. apply (subSum_ext m). intros b _ _. now rewrite cross_dot_swap. Qed.

Lemma der_pass :
  let t := downward m step s0 in
  KI t /\
  (forall i, 0 < i < m_njoints m -> forall X Z, v6dot X (inertia_mul (Yo t i) Z) = subSum m i (fun b => v6dot X (inertia_mul (Ys b) Z))) /\
  (forall i a, 0 < i < m_njoints m -> a < nvOf m i -> To t (idx_v m i + a) = subSum m i (fun b => v6dot (J (idx_v m i + a)) (Os b))) /\
  forall i a j c, 0 < i < m_njoints m -> a < nvOf m i -> 0 < j < m_njoints m -> c < nvOf m j ->
  (Ea t (idx_v m i + a) (idx_v m j + c) = if anc m i j then subSum m j (fun b => v6dot (J (idx_v m i + a)) (inertia_mul (Ys b) (J (idx_v m j + c)))) else Ea s0 (idx_v m i + a) (idx_v m j + c)) /\
  (Eo t (idx_v m i + a) (idx_v m j + c) = if anc m i j || anc m j i then derEntry i j (idx_v m i + a) (idx_v m j + c) else Eo s0 (idx_v m i + a) (idx_v m j + c)).
Proof.
  pose (Inv := fun k s => KI s /\ (forall b, 0 < b < m_njoints m -> regularMass eps (mass (Yo s b))) /\
    (forall X Z, accInv m (fun s j => v6dot X (inertia_mul (Yo s j) Z)) s0 false k s) /\
    (forall X Z, accInv m (fun s j => v6dot X (m6vec (Do s j) Z)) s0 false k s) /\
    (forall X, accInv m (fun s j => v6dot X (Oo s j)) s0 false k s) /\
    (forall j c X, k <= j -> 0 < j < m_njoints m -> c < nvOf m j ->
        v6dot X (Fa s (idx_v m j + c)) = subSum m j (fun b => v6dot X (inertia_mul (Ys b) (J (idx_v m j + c)))) /\
        v6dot X (Ft s (idx_v m j + c)) = subSum m j (fun b => v6dot (J (idx_v m j + c)) (m6vec (Ds b) X)) /\
        v6dot X (Fx s (idx_v m j + c)) = Rplus (subSum m j (fun b => v6dot X (v6add (m6vec (Ds b) (V (idx_v m j + c))) (inertia_mul (Ys b) (A (idx_v m j + c))))))
           (if fx then subSum m j (fun b => v6dot X (force_cross (J (idx_v m j + c)) (Os b))) else 0%R) /\
        To s (idx_v m j + c) = subSum m j (fun b => v6dot (J (idx_v m j + c)) (Os b))) /\
    (forall i a j c, 0 < i < m_njoints m -> a < nvOf m i -> 0 < j < m_njoints m -> c < nvOf m j ->
      (Ea s (idx_v m i + a) (idx_v m j + c) = if (k <=? i) && anc m i j then subSum m j (fun b => v6dot (J (idx_v m i + a)) (inertia_mul (Ys b) (J (idx_v m j + c)))) else Ea s0 (idx_v m i + a) (idx_v m j + c)) /\
      (Eo s (idx_v m i + a) (idx_v m j + c) = if (k <=? i) && anc m i j || (k <=? j) && anc m j i then derEntry i j (idx_v m i + a) (idx_v m j + c) else Eo s0 (idx_v m i + a) (idx_v m j + c)))).
  assert (H : Inv 1 (downward m step s0)).
  { apply downward_inv; [apply (wf_n _ W) | |].
    - split; [exact KI0|]. split; [intros b Hb; destruct (Y0 b Hb) as [-> H]; exact H|].
      split; [intros; apply accInv_start|]. split; [intros; apply accInv_start|]. split; [intros; apply accInv_start|]. split; [intros; lia|].
      intros i a j c Hi _ Hj _. destruct (Nat.leb_spec (m_njoints m) i), (Nat.leb_spec (m_njoints m) j); try lia. split; reflexivity.
    - intros i s Hi (I1 & IR & IY & ID & IO & I3 & I4). pose proof (wf_parent _ W i Hi) as Hp. assert (Hb0 : false || (0 <? i) = true) by (cbn [orb]; apply Nat.ltb_lt; lia).
      assert (CY : forall X Z, v6dot X (inertia_mul (Yo s i) Z) = subSum m i (fun b => v6dot X (inertia_mul (Ys b) Z))).
      { intros X Z. rewrite (acc_complete m W T _ s0 false (i + 1) s (IY X Z) i ltac:(lia) Hb0 ltac:(lia)). apply (subSum_ext m). intros b Hb Ab.
        destruct (Y0 b) as [-> _]; [|reflexivity]. apply (anc_le m W T) in Ab; lia. }
      assert (CD : forall X Z, v6dot X (m6vec (Do s i) Z) = subSum m i (fun b => v6dot X (m6vec (Ds b) Z))).
      { intros X Z. rewrite (acc_complete m W T _ s0 false (i + 1) s (ID X Z) i ltac:(lia) Hb0 ltac:(lia)). apply (subSum_ext m). intros b Hb Ab.
        rewrite (D0 b); [reflexivity|]. apply (anc_le m W T) in Ab; lia. }
      assert (CO : forall X, v6dot X (Oo s i) = subSum m i (fun b => v6dot X (Os b))).
      { intros X. rewrite (acc_complete m W T _ s0 false (i + 1) s (IO X) i ltac:(lia) Hb0 ltac:(lia)). apply (subSum_ext m). intros b Hb Ab.
        rewrite (O0 b); [reflexivity|]. apply (anc_le m W T) in Ab; lia. }
      assert (CB : forall X k, v6dot X (base s i k) = subSum m i (fun b => v6dot X (v6add (m6vec (Ds b) (V k)) (inertia_mul (Ys b) (A k))))).
      { intros X k. unfold base. rewrite v6dot_add_r, CD, CY, <- (subSum_add m). apply (subSum_ext m). intros b _ _. now rewrite v6dot_add_r. }
      assert (CF : forall j c X, i <= j -> 0 < j < m_njoints m -> c < nvOf m j ->
        v6dot X (Fa (step s i) (idx_v m j + c)) = subSum m j (fun b => v6dot X (inertia_mul (Ys b) (J (idx_v m j + c)))) /\
        v6dot X (Ft (step s i) (idx_v m j + c)) = subSum m j (fun b => v6dot (J (idx_v m j + c)) (m6vec (Ds b) X)) /\
        v6dot X (Fx (step s i) (idx_v m j + c)) = Rplus (subSum m j (fun b => v6dot X (v6add (m6vec (Ds b) (V (idx_v m j + c))) (inertia_mul (Ys b) (A (idx_v m j + c))))))
           (if fx then subSum m j (fun b => v6dot X (force_cross (J (idx_v m j + c)) (Os b))) else 0%R) /\
        To (step s i) (idx_v m j + c) = subSum m j (fun b => v6dot (J (idx_v m j + c)) (Os b))).
      { intros j c X Hij Hj Hc. pose proof (within_own m W NM i j c Hi Hj Hc) as HW. rewrite (stFa i s _ Hi I1), (stFt i s _ Hi I1), (stT i s _ Hi I1), HW. destruct (Nat.eqb_spec i j) as [<-|Hn].
        - rewrite (stFx i s c X Hi Hc I1), CY, CO. split; [reflexivity|]. split; [|split; [|reflexivity]].
          + rewrite <- m6dot_tr, v6dot_comm, CD. reflexivity.
          + rewrite v6dot_add_r, CB. f_equal. destruct fx; [apply subSum_fcross, CO | apply v6dot_0_r].
        - rewrite (stFx' i s _ Hi I1 HW). apply I3; (assumption || lia). }
      split; [now apply KIs|]. split.
      { intros b Hb. rewrite (stY i s b Hi ltac:(lia) I1). destruct (Nat.eqb_spec (parent m i) b) as [<-|]; [apply regular_plus; auto | auto]. }
      split.
      { intros X Z. apply (accInv_step m W _ _ _ _ _ _ Hi (IY X Z)). intros j Hj Hj0. cbn [orb] in Hj0. apply Nat.ltb_lt in Hj0. rewrite (stY i s j Hi Hj0 I1).
        destruct (Nat.eqb_spec (parent m i) j) as [<-|]; [|ring]. rewrite inertia_plus_mul by (apply regular_plus; auto; apply IR; lia). apply v6dot_add_r. }
      split.
      { intros X Z. apply (accInv_step m W _ _ _ _ _ _ Hi (ID X Z)). intros j Hj Hj0. cbn [orb] in Hj0. apply Nat.ltb_lt in Hj0. rewrite (stD i s j Hi Hj0 I1).
        destruct (Nat.eqb_spec (parent m i) j) as [<-|]; [|ring]. rewrite m6vec_add_l. apply v6dot_add_r. }
      split.
      { intros X. apply (accInv_step m W _ _ _ _ _ _ Hi (IO X)). intros j Hj Hj0. cbn [orb] in Hj0. apply Nat.ltb_lt in Hj0. rewrite (stO i s j Hi Hj0 I1).
        destruct (Nat.eqb_spec (parent m i) j) as [<-|]; [|ring]. apply v6dot_add_r. }
      split; [exact CF|].
      intros i' a j c Hi' Ha Hj Hc. destruct (I4 i' a j c Hi' Ha Hj Hc) as [Ia Ie]. split.
      + rewrite (stEa i s _ _ Hi I1), (within_own m W NM i i' a Hi Hi' Ha), (within_subtree m W T Vm NM DF i j c Hi Hj Hc). destruct (Nat.eqb_spec i i') as [<-|Hn]; cbn [andb].
        * destruct (Nat.leb_spec i i); [|lia]. cbn [andb]. destruct (anc m i j) eqn:Aij; [|rewrite Ia, andb_false_r; reflexivity].
          pose proof (anc_le m W T i j ltac:(lia) Aij). apply (CF j c); assumption || lia.
        * rewrite Ia. destruct (Nat.leb_spec (i + 1) i'), (Nat.leb_spec i i'); try lia; reflexivity.
      + rewrite (stE i s _ _ Hi I1), (within_own m W NM i i' a Hi Hi' Ha), (within_subtree m W T Vm NM DF i j c Hi Hj Hc), (within_own m W NM i j c Hi Hj Hc), (within_below i i' a Hi Hi' Ha).
        destruct (Nat.eqb_spec i i') as [<-|Hn]; cbn [andb].
        * destruct (Nat.leb_spec i i); [|lia]. cbn [andb]. destruct (anc m i j) eqn:Aij; cbn [orb].
          -- pose proof (anc_le m W T i j ltac:(lia) Aij). unfold derEntry. rewrite (common_below m W T i j _ Aij), (anc_strict i j ltac:(lia) Hj), Aij. cbn [andb].
             destruct (Nat.eqb_spec i j) as [<-|Hij]; cbn [negb]; [rewrite andb_false_r, CB; ring|]. rewrite andb_true_r.
             destruct (I3 j c (J (idx_v m i + a)) ltac:(lia) Hj Hc) as (_ & _ & -> & _). reflexivity.
          -- rewrite Nat.eqb_refl. cbn [negb]. rewrite andb_false_r. cbn [andb]. rewrite Ie, andb_false_r. cbn [orb].
             destruct (Nat.leb_spec (i + 1) j), (Nat.leb_spec i j); try lia; try reflexivity.
             assert (i = j) as <- by lia. rewrite (anc_self m W T i) in Aij by lia. discriminate.
        * destruct (Nat.eqb_spec i' i); [congruence|]. cbn [negb]. rewrite andb_true_r. destruct (anc m i i') eqn:Aii; cbn [andb].
          -- pose proof (anc_le m W T i i' ltac:(lia) Aii) as Hle. destruct (Nat.eqb_spec i j) as [<-|Hij].
             ++ destruct (Nat.leb_spec i i'); [|lia]. destruct (Nat.leb_spec i i); [|lia]. rewrite Aii, orb_true_r. unfold derEntry.
                rewrite (common_above m W T i' i _ Aii). destruct (I3 i' a (A (idx_v m i + c)) ltac:(lia) Hi' Ha) as (Z1 & _). destruct (I3 i' a (V (idx_v m i + c)) ltac:(lia) Hi' Ha) as (_ & Z2 & _).
                rewrite (v6dot_comm (Fa s _)), (v6dot_comm (Ft s _)), Z1, Z2, <- (subSum_add m).
                assert (N : anc m i' (parent m i) = false). { destruct (anc m i' (parent m i)) eqn:B; [|reflexivity]. apply (anc_le m W T) in B; lia. }
                rewrite N, andb_false_r, Rplus_0_r. apply (subSum_ext m). intros b _ _. rewrite v6dot_add_r, (inertia_mul_sym (Ys b) (A _) (J _)). ring.
             ++ rewrite Ie. destruct (Nat.leb_spec (i + 1) i'), (Nat.leb_spec i i'), (Nat.leb_spec (i + 1) j), (Nat.leb_spec i j); try lia; reflexivity.
          -- rewrite Ie. destruct (Nat.eqb_spec i j) as [<-|Hij].
             ++ rewrite Aii, !andb_false_r. destruct (Nat.leb_spec (i + 1) i'), (Nat.leb_spec i i'); try lia; reflexivity.
             ++ destruct (Nat.leb_spec (i + 1) i'), (Nat.leb_spec i i'), (Nat.leb_spec (i + 1) j), (Nat.leb_spec i j); try lia; reflexivity. }
  cbv zeta. destruct H as (H1 & _ & HY & _ & _ & H3 & H4). split; [exact H1|]. split; [|split].
  - intros i Hi X Z. assert (Hb0 : false || (0 <? i) = true) by (cbn [orb]; apply Nat.ltb_lt; lia).
    rewrite (acc_complete m W T _ s0 false 1 _ (HY X Z) i ltac:(lia) Hb0 ltac:(lia)). apply (subSum_ext m). intros b Hb Ab.
    destruct (Y0 b) as [-> _]; [|reflexivity]. apply (anc_le m W T) in Ab; lia.
  - intros i a Hi Ha. now apply (H3 i a v6zero).
  - intros i a j c Hi Ha Hj Hc. destruct (H4 i a j c Hi Ha Hj Hc) as [-> ->]. destruct (Nat.leb_spec 1 i), (Nat.leb_spec 1 j); try lia. split; reflexivity.
Qed.
End Pass.
End Der.
