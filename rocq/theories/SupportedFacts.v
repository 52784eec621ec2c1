Require Import Reals List Arith Lia Lra Bool.
From Verif Require Import Vec3 Spatial Inertia InertiaFacts Spec_Spatial Joints Model Spec_Model ModelFacts ModelTree ModelFacts2 ModelFacts3 Data Kinematics Spec_Kin Spec_Dyn Spec_Mass KinFacts KinFacts2 CrbaFacts Supported Spec_Supported.
Import ListNotations.
Local Open Scope nat_scope.

(* sums of inertias *)
Lemma pequ_list {A} eps (Y : A -> Inertia) l : forall I0, (0 < eps)%R -> regularMass eps (mass I0) -> (forall x, In x l -> regularMass eps (mass (Y x))) ->
  let I := fold_left (fun I x => inertia_pequ eps I (Y x)) l I0 in
  regularMass eps (mass I) /\ mass I = (mass I0 + sumR (map (fun x => mass (Y x)) l))%R /\
  forall V, inertia_mul I V = v6add (inertia_mul I0 V) (sumV6 (map (fun x => inertia_mul (Y x) V) l)).
Proof.
  induction l as [|x l IH]; intros I0 He R0 RL; cbv zeta; cbn [fold_left map sumR fold_right sumV6].
  - split; [exact R0|]. split; [ring|]. intros V. now rewrite v6add_0_r.
  - destruct (regular_plus eps I0 (Y x) He R0 (RL x (or_introl eq_refl))) as [Ex Rg]. rewrite inertia_pequ_plus.
    destruct (IH (inertia_plus eps I0 (Y x)) He Rg (fun y Hy => RL y (or_intror Hy))) as (A1 & A2 & A3). split; [exact A1|]. split.
    + rewrite A2. unfold inertia_plus at 1. cbn [mass]. fold (sumR (map (fun x0 => mass (Y x0)) l)). ring.
    + intros V. rewrite A3, (inertia_plus_mul eps I0 (Y x) V Ex). generalize (inertia_mul I0 V) (inertia_mul (Y x) V) (sumV6 (map (fun x0 => inertia_mul (Y x0) V) l)). sring.
Qed.

(* the frames that the loop collects *)
Section Frames.
Variables (eps : R) (m : Model) (f : nat).
Hypothesis FO : framesOrdered m.
Hypothesis Hf : f < m_nframes m.
Lemma carried_ge g : carried m f g -> f <= g < m_nframes m.
Proof.
  induction 1 as [|g Hg Ej Hc IH]; [lia|]. destruct (FO g Hg) as [H|[-> H]]; [lia|]. rewrite H in IH. lia.
Qed.
Lemma carried_iff i : f < i < m_nframes m -> carried m f i <-> fr_parentJoint (frameAt m i) = fr_parentJoint (frameAt m f) /\ carried m f (fr_parentFrame (frameAt m i)).
Proof.
  intros Hi. split; [|intros [A B]; constructor; [lia | exact A | exact B]].
  intros H. inversion H as [E|g Hg Ej Hc E]; [lia|]. auto.
Qed.
Definition placedY (g : nat) : Inertia := inertia_act (fr_placement (frameAt m g)) (fr_inertia (frameAt m g)).
Lemma frames_collect k : S f + k <= m_nframes m ->
  exists L, fold_left (childStep eps m f) (seq (S f) k) ([f], placedY f) = (f :: L, fold_left (fun I x => inertia_pequ eps I (placedY x)) L (placedY f)) /\
  NoDup (f :: L) /\ forall x, In x (f :: L) <-> carried m f x /\ x < S f + k.
Proof.
  induction k as [|k IH]; intros Hk.
  - exists []. cbn [seq fold_left]. split; [reflexivity|]. split; [constructor; [tauto | constructor]|].
    intros x. split; [intros [<-|[]]; split; [constructor | lia]|]. intros [H1 H2]. pose proof (carried_ge x H1). left. lia.
  - destruct (IH ltac:(lia)) as (L & E & N & C). rewrite List.seq_S, fold_left_app, E. cbn [fold_left]. unfold childStep. set (i := S f + k) in *.
    assert (Hi : f < i < m_nframes m) by lia. pose proof (carried_iff i Hi) as CI.
    assert (Hp : fr_parentFrame (frameAt m i) < i) by (destruct (FO i ltac:(lia)) as [H|[H _]]; lia).
    assert (HE : existsb (Nat.eqb (fr_parentFrame (frameAt m i))) (f :: L) = true <-> carried m f (fr_parentFrame (frameAt m i))).
    { rewrite existsb_exists. split.
      - intros (x & Hx & Ex). apply Nat.eqb_eq in Ex. rewrite Ex. apply C. exact Hx.
      - intros H. exists (fr_parentFrame (frameAt m i)). split; [apply C; split; [exact H | exact Hp] | apply Nat.eqb_refl]. }
    cbn [fst snd].
    assert (Skip : ~ carried m f i -> exists L0, (f :: L, fold_left (fun I x => inertia_pequ eps I (placedY x)) L (placedY f)) = (f :: L0, fold_left (fun I x => inertia_pequ eps I (placedY x)) L0 (placedY f)) /\
       NoDup (f :: L0) /\ forall x, In x (f :: L0) <-> carried m f x /\ x < S f + S k).
    { intros H. exists L. split; [reflexivity|]. split; [exact N|]. intros x. rewrite C. split; intros [A B]; split; auto; try lia.
      destruct (Nat.eq_dec x i) as [->|Hn]; [contradiction | lia]. }
    destruct (Nat.eqb_spec (fr_parentJoint (frameAt m i)) (fr_parentJoint (frameAt m f))) as [Ej|Ej]; cbn [negb]; [|apply Skip; intros H; apply CI in H; tauto].
    destruct (existsb _ (f :: L)) eqn:EE; cbn [negb]; [|apply Skip; intros H; apply CI in H; destruct H as [_ H]; apply HE in H; congruence].
    exists (L ++ [i]). split; [rewrite fold_left_app; reflexivity|]. split.
    + pose proof (Add_app i (f :: L) []) as H. rewrite app_nil_r in H. apply (NoDup_Add H). split; [exact N|].
      intros H'. apply C in H'. lia.
    + intros x. change (f :: L ++ [i]) with ((f :: L) ++ [i]). rewrite in_app_iff, C. split.
      * intros [[A B]|[<-|[]]]; [split; [exact A | lia]|]. split; [apply CI; split; [exact Ej | now apply HE] | lia].
      * intros [A B]. destruct (Nat.eq_dec x i) as [->|Hn]; [right; left; reflexivity | left; split; [exact A | lia]].
Qed.
Lemma frameInertias_sum : exists L, enumerates (f :: L) (carried m f) /\ frameInertias eps m f = fold_left (fun I x => inertia_pequ eps I (placedY x)) L (placedY f).
Proof.
  destruct (frames_collect (m_nframes m - S f) ltac:(lia)) as (L & E & N & C). exists L. split.
  - split; [exact N|]. intros x. rewrite C. split; [tauto|]. intros H. split; [exact H|]. pose proof (carried_ge x H). lia.
  - unfold frameInertias. change (inertia_act (fr_placement (frameAt m f)) (fr_inertia (frameAt m f))) with (placedY f). now rewrite E.
Qed.
End Frames.
