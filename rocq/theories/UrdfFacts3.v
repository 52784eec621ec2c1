Require Import Reals String List Arith Bool Lia Lra.
From Verif Require Import Vec3 Spatial SpatialFacts Inertia Joints Spec_Joints Model Spec_Model ModelFacts ModelFacts2 ModelFacts3 ModelTree Data Kinematics Spec_Kin KinFacts Append AppendFacts5 Urdf Spec_Urdf UrdfFacts UrdfFacts2.
Import ListNotations.
Local Open Scope nat_scope.

Lemma Fr_empty : Fr emptyModel [] ["universe"%string].
Proof.
  split; [|split; [|split]].
  - intros f [<-|[]] H. cbn in H. congruence.
  - intros f [<-|[]] _. left. reflexivity.
  - intros n [].
  - intros [|[|i]] j f g Hi Hj; cbn in Hi; try discriminate. injection Hi as <-. discriminate.
Qed.
Definition rootLinked (m : Model) (root : option (Joint * string * Limits)) (n : string) : Prop := exists k f, isBody m k n f /\
  fr_placement f = se3_Identity /\
  match root with
  | None => fr_parentJoint f = 0
  | Some (j, rjn, _) => 0 < fr_parentJoint f < m_njoints m /\ parent m (fr_parentJoint f) = 0 /\ placementOf m (fr_parentJoint f) = se3_Identity /\
      jm_type (joint m (fr_parentJoint f)) = j /\ nth (fr_parentJoint f) (m_names m) ""%string = rjn
  end.
Lemma rootLinked_ext m m' r n : ext m m' -> rootLinked m r n -> rootLinked m' r n.
Proof.
  intros X (k & f & Hf & Hp & R). exists k, f. split; [exact (isBody_ext _ _ _ _ _ X Hf)|]. split; [exact Hp|].
  destruct r as [[[j rjn] lim]|]; [|exact R]. destruct R as (R1 & R3 & R4 & R5 & R6). destruct X as (X1 & _ & X3).
  destruct (X3 _ (proj2 R1)) as (Y1 & Y2 & Y3 & Y4). rewrite Y1, Y2, Y3, Y4. repeat split; auto; lia.
Qed.
Definition rootJn (root : option (Joint * string * Limits)) : list string := match root with Some (_, rjn, _) => [rjn] | None => [] end.

Lemma NoDup_left {A} (a b : list A) : NoDup (a ++ b) -> NoDup a.
Proof. induction a as [|x a IH]; intros H; [constructor|]. inversion H as [|y z N1 N2]; subst. constructor; [intros h; apply N1, in_or_app; auto | exact (IH N2)]. Qed.

Section Loading.
Variable eps : R.
Lemma root_ok root Y n : NoDup ("universe"%string :: rootJn root) -> match root with Some (jt, _, lim) => notMimic jt /\ goodSizes jt lim | None => True end ->
  exists m', parseRoot eps emptyModel root Y n = Ok m' tt /\ Inv eps m' [n] ("universe"%string :: rootJn root) [] [(n, Y)] /\ rootLinked m' root n /\ m_njoints m' = 1 + length (rootJn root).
Proof.
  intros ND G. assert (A0 : attached emptyModel [] []) by (split; [constructor | reflexivity]).
  destruct root as [[[j rjn] lim]|]; cbn [parseRoot rootJn] in *.
  - destruct G as [G1 G2]. assert (Nn : ~ In rjn ["universe"%string]).
    { inversion ND as [|x y N1 N2]; subst. intros [<-|[]]. apply N1. left. reflexivity. }
    replace (existJointName emptyModel rjn) with false.
    2: { unfold existJointName, getJointId. cbn [m_names emptyModel findIndex length]. destruct (String.eqb_spec "universe" rjn) as [E|E]; [exfalso; apply Nn; left; exact E | reflexivity]. }
    destruct (joint_ok eps emptyModel [] [] ["universe"%string] 0 j lim se3_Identity rjn 0 Y n (H_empty eps) Fr_empty ltac:(intros []) Nn ltac:(cbn; lia) G1 G2)
      as (m' & l' & f & E1 & X & H' & F' & (kf & Bf) & Pj & Pp & N' & Q1 & Q2 & Q3 & Q4 & At').
    exists m'. split; [exact E1|]. split; [exists l'; split; [exact H'|]; split; [exact F'|]; split; [intros e []|]; exact (At' [] A0)|].
    split; [|rewrite N'; reflexivity]. exists kf, f. rewrite Pj. repeat (split; [first [assumption | rewrite N'; cbn; lia]|]). exact Q4.
  - destruct (push eps emptyModel [] (mkFrame n 0 0 se3_Identity BODY Y) (H_empty eps) ltac:(cbn; lia) (Fr_freshBody _ _ _ n Fr_empty ltac:(intros [])))
      as (m' & E & E2 & X & Nj & H').
    assert (Bf : isBody m' 1 n (mkFrame n 0 0 se3_Identity BODY Y)) by (split; [rewrite E2; reflexivity | split; reflexivity]).
    exists m'. change (frameAt emptyModel 0) with universeFrame. cbn [fr_parentJoint fr_placement universeFrame]. rewrite E. split; [reflexivity|].
    split; [|split; [exists 1, (mkFrame n 0 0 se3_Identity BODY Y); auto | rewrite Nj; reflexivity]].
    eexists. split; [exact H'|]. split; [exact (Fr_body emptyModel m' [] _ _ E2 eq_refl ltac:(intros []) Fr_empty)|]. split; [intros e []|].
    exact (attached_add m' [] [] n Y _ _ Bf (attached_ext _ _ _ _ X A0)).
Qed.
Lemma runEdges_ext es : forall m m', (exists L J E P, Inv eps m L J E P /\ ready L J es) -> runEdges eps m es = Ok m' tt ->
  forall r n, rootLinked m r n -> rootLinked m' r n.
Proof.
  induction es as [|e es IH]; intros m m' (L & J & E & P & I & R) H r n Hr; [injection H as <-; exact Hr|].
  destruct R as (R1 & R2 & R3 & R4 & R5).
  assert (X : exists m1, parseLink eps m (e_parent e) (e_conn e) (e_name e) (e_Y e) = Ok m1 tt /\
    Inv eps m1 (L ++ [e_name e]) (J ++ [jn e]) (E ++ [e]) (P ++ [pairOf e]) /\ ext m m1).
  { destruct (link_ok eps m L J E P e I R1 R2 R3 R4) as (m1 & E1 & I1 & X1 & _). exists m1. auto. }
  destruct X as (m1 & E1 & I1 & X). unfold runEdges in H. cbn [fold_left bind] in H. unfold runEdge at 2 in H. rewrite E1 in H.
  apply (IH m1 m'); [exists (L ++ [e_name e]), (J ++ [jn e]), (E ++ [e]), (P ++ [pairOf e]); auto | exact H | exact (rootLinked_ext _ _ _ _ X Hr)].
Qed.

Lemma load_inv root l : goodTree root l -> exists m', parseRootTree eps emptyModel root l = Ok m' tt /\
  Inv eps m' (linkNames l) ("universe"%string :: jointNames root l) (treeEdges l) ((rootName l, rootInertia l) :: map pairOf (treeEdges l)) /\ rootLinked m' root (rootName l) /\
  m_njoints m' = 1 + length (rootJn root) + moving (treeEdges l).
Proof.
  intros (NL & NJ & G & Gr). unfold jointNames, linkNames in *. fold (rootJn root) in *. destruct l as [n Y ks]. cbn [rootName rootInertia] in *. unfold parseRootTree.
  assert (NJ0 : NoDup ("universe"%string :: rootJn root)) by (rewrite app_comm_cons in NJ; apply NoDup_left in NJ; exact NJ).
  destruct (root_ok root Y n NJ0 Gr) as (m0 & E0 & I0 & R0 & C0). rewrite E0. cbn [bind]. rewrite kids_edges. cbn [bind].
  change (flat_map (fun k => edges n (fst k) (snd k)) ks) with (treeEdges (mkLink n Y ks)) in *.
  assert (Rd : ready [n] ("universe"%string :: rootJn root) (treeEdges (mkLink n Y ks))).
  { apply ready_flat; [exact NL | exact NJ | exact G|]. intros a e b Es. destruct (tree_closed (mkLink n Y ks) a e b Es) as [Hp|Hp]; cbn [rootName] in Hp; [left; congruence | right; exact Hp]. }
  destruct (runEdges_ok eps _ _ _ _ _ _ I0 Rd) as (m' & E' & I' & C'). exists m'. split; [exact E'|]. split; [exact I'|]. split; [|rewrite C', C0; reflexivity].
  refine (runEdges_ext _ _ _ _ E' _ _ R0). eexists _, _, _, _. split; [exact I0 | exact Rd].
Qed.

Lemma isBody_bodyFrame m L J k n f : Fr m L J -> isBody m k n f -> bodyFrame m n f.
Proof.
  intros (_ & _ & _ & D) (K & En & T). split; [eapply nth_error_In; exact K|]. split; [exact En|]. split; [exact T|].
  intros g Hg Eg Tg. apply In_nth_error in Hg. destruct Hg as [i Hi]. pose proof (D i k g f Hi K Tg T ltac:(congruence)). congruence.
Qed.

(* motion of the joint of a frame *)
Theorem load_kin root l : goodTree root l -> exists m', parseRootTree eps emptyModel root l = Ok m' tt /\ Built eps m' /\
  m_njoints m' = 1 + (match root with Some _ => 1 | None => 0 end) + moving (treeEdges l) /\
  (exists f, bodyFrame m' (rootName l) f /\ forall q, framePl m' q f =
     match root with Some (j, _, _) => jM (jcalc j (shift (idx_q m' (fr_parentJoint f)) q) noVel) | None => se3_Identity end) /\
  forall e, In e (treeEdges l) -> exists f g, bodyFrame m' (e_name e) f /\ bodyFrame m' (e_parent e) g /\
    match c_joint (e_conn e) with
    | None => fr_parentJoint f = fr_parentJoint g /\ forall q, framePl m' q f = se3_mul (framePl m' q g) (c_origin (e_conn e))
    | Some (j, _) => nth (fr_parentJoint f) (m_names m') ""%string = c_name (e_conn e) /\ jm_type (joint m' (fr_parentJoint f)) = j /\
        parent m' (fr_parentJoint f) = fr_parentJoint g /\
        forall q, framePl m' q f = se3_mul (framePl m' q g) (se3_mul (c_origin (e_conn e)) (jM (jcalc j (shift (idx_q m' (fr_parentJoint f)) q) noVel)))
    end.
Proof.
  intros G. destruct (load_inv root l G) as (m' & E & (hs & H & F & Lk & At) & (k & f & Bf & Pf & R) & Cn). exists m'. split; [exact E|].
  assert (B : Built eps m') by (exists hs; exact H). pose proof (Built_wf _ _ B) as W. pose proof (Built_tree _ _ B) as T. split; [exact B|].
  split; [rewrite Cn; destruct root as [[[? ?] ?]|]; reflexivity|].
  assert (M : forall q i, jM (jointAt m' q noVel i) = jM (jcalc (jm_type (joint m' i)) (shift (idx_q m' i) q) noVel)).
  { intros q i. reflexivity. }
  split.
  - exists f. split; [exact (isBody_bodyFrame _ _ _ _ _ _ F Bf)|]. intros q. unfold framePl. rewrite Pf, se3_mul_1_r.
    destruct root as [[[j rjn] lim]|]; [|rewrite R; apply worldPl_0; assumption]. destruct R as (R1 & R2 & R3 & R4 & _).
    rewrite (worldPl_step m' W T q _ R1), R2, (worldPl_0 m' W T), se3_mul_1_l. unfold relPl. rewrite R3, se3_mul_1_l, M, R4. reflexivity.
  - intros e He. destruct (Lk e He) as (kf & f' & kg & g & Hf & Hg & Q). exists f', g.
    split; [exact (isBody_bodyFrame _ _ _ _ _ _ F Hf)|]. split; [exact (isBody_bodyFrame _ _ _ _ _ _ F Hg)|].
    destruct (c_joint (e_conn e)) as [[j lim]|].
    + destruct Q as (Q1 & Q2 & Q3 & Q4 & Q5 & Q6). split; [exact Q6|]. split; [exact Q5|]. split; [exact Q3|]. intros q. unfold framePl.
      rewrite Q2, se3_mul_1_r, (worldPl_step m' W T q _ Q1), Q3. unfold relPl. rewrite Q4, M, Q5, !se3_mul_assoc. reflexivity.
    + destruct Q as (Q1 & Q2). split; [exact Q1|]. intros q. unfold framePl. rewrite Q1, Q2. apply se3_mul_assoc.
Qed.

Theorem load_bodies root l : goodTree root l -> exists m', parseRootTree eps emptyModel root l = Ok m' tt /\ totalMass m' = linkMass l /\
  exists bodies, History eps m' bodies /\
    Forall2 (fun (link : string * Inertia) (x : nat * SE3 * Inertia) => snd x = snd link /\
               exists f, bodyFrame m' (fst link) f /\ fst x = (fr_parentJoint f, fr_placement f))
      (filter (fun p => negb (isZeroInertia (snd p))) ((rootName l, rootInertia l) :: map (fun e => (e_name e, e_Y e)) (treeEdges l)))
      (filter (fun x => negb (isZeroInertia (snd x))) bodies).
Proof.
  intros G. destruct (load_inv root l G) as (m' & E & (hs & H & F & Lk & (At & Ms)) & _). exists m'. split; [exact E|]. split.
  - rewrite (history_mass eps m' hs H), Ms. unfold linkMass. cbn. f_equal. f_equal. rewrite map_map. reflexivity.
  - exists hs. split; [exact H|]. revert At. apply Forall2_imp. intros a b (S1 & k & f & Bf & Ef). split; [exact S1|]. exists f. split; [exact (isBody_bodyFrame _ _ _ _ _ _ F Bf) | exact Ef].
Qed.
End Loading.

(* ---- a description with a moving joint, and fixed ones below and above it ---- *)
Definition urdfEx : Link := mkLink "base" inertia_Zero [
  (mkConn "shoulder" (mkSE3 m3id (mkV3 0 0 1)) (Some (JSimple (JRevolute 2), exLim 1 1)),
     mkLink "arm" exY1 [(mkConn "wrist" (mkSE3 m3id (mkV3 1 0 0)) None, mkLink "tool" exY1 [])]);
  (mkConn "mount" (mkSE3 m3id (mkV3 0 1 0)) None, mkLink "camera" exY1 [])].
Ltac nodup := repeat constructor; cbn; intuition discriminate.
Lemma urdfEx_good : goodTree None urdfEx /\ goodTree (Some (JSimple JFreeFlyer, "root_joint"%string, exLim 7 6)) urdfEx.
Proof.
  assert (G : forall e, In e (treeEdges urdfEx) -> goodJoint (c_joint (e_conn e))).
  { intros e [<-|[<-|[<-|[]]]]; cbn; try exact I. repeat split. }
  split; (split; [nodup|]; split; [nodup|]; split; [exact G|]); [exact I | repeat split].
Qed.

(* a fixed joint with the name of the universe *)
Definition urdfUniverse : Link := mkLink "base" inertia_Zero [(mkConn "universe" (mkSE3 m3id (mkV3 1 0 0)) None, mkLink "tool" exY1 [])].
Lemma universe_lost eps : NoDup (linkNames urdfUniverse) /\ NoDup (jointNames None urdfUniverse) /\ linkMass urdfUniverse = 2%R /\
  exists m', parseRootTree eps emptyModel None urdfUniverse = Ok m' tt /\ totalMass m' = 0%R.
Proof.
  split; [nodup|]. split; [nodup|]. split; [unfold linkMass; cbn; ring|].
  eexists. split; [reflexivity|]. unfold totalMass. cbn. ring.
Qed.
