Require Import Reals String List Arith Bool Lia Lra.
From Verif Require Import Vec3 Spatial SpatialFacts Inertia Joints Spec_Joints Model Spec_Model ModelFacts ModelFacts2 ModelFacts3 ModelTree Data Kinematics Spec_Kin KinFacts Append AppendFacts5 Urdf Spec_Urdf.
Import ListNotations.
Local Open Scope nat_scope.

(* m' extends m: frames and joints of m are kept *)
Definition ext (m m' : Model) : Prop :=
  m_njoints m <= m_njoints m' /\
  (forall k f, nth_error (m_frames m) k = Some f -> nth_error (m_frames m') k = Some f) /\
  forall i, i < m_njoints m -> joint m' i = joint m i /\ parent m' i = parent m i /\ placementOf m' i = placementOf m i /\
    nth i (m_names m') ""%string = nth i (m_names m) ""%string.
Lemma ext_refl m : ext m m. Proof. repeat split; auto. Qed.
Lemma ext_trans a b c : ext a b -> ext b c -> ext a c.
Proof.
  intros (A1&A2&A3) (B1&B2&B3). split; [lia|]. split; [intros; auto|]. intros i Hi.
  destruct (A3 i Hi) as (E1&E2&E3&E4), (B3 i ltac:(lia)) as (F1&F2&F3&F4). repeat split; congruence.
Qed.

Lemma push eps m l f : History eps m l -> fr_parentJoint f < m_njoints m ->
  (forall g, In g (m_frames m) -> ~ matches (fr_name f) (fr_type f) g) ->
  exists m', addFrame eps m f true = Ok m' (m_nframes m) /\ m_frames m' = m_frames m ++ [f] /\ ext m m' /\
    m_njoints m' = m_njoints m /\ History eps m' (l ++ [(fr_parentJoint f, fr_placement f, fr_inertia f)]).
Proof.
  intros H Hj Hn. assert (W : wellFormed m) by (apply (Built_wf eps); exists l; exact H).
  destruct (addFrame_new eps m f true W Hj Hn) as (m' & E & _). exists m'. split; [exact E|].
  pose proof (H_step eps m m' l _ H (S_frame eps m m' f _ E eq_refl)) as H'. cbn in H'.
  destruct (addFrame_cases _ _ _ _ _ _ E) as [_ [(Hx & _)|(_ & _ & [(Hb & _)|(_ & _ & ->)])]].
  - exfalso. apply existFrame_spec in Hx. destruct Hx as (g & Hg & M). exact (Hn g Hg M).
  - discriminate.
  - split; [reflexivity|]. split; [|split; [reflexivity | exact H']]. split; [cbn; lia|]. split; [|repeat split; reflexivity].
    intros k g Hk. cbn. rewrite nth_error_app1; [exact Hk | apply nth_error_Some; congruence].
Qed.

Definition Fr (m : Model) (L J : list string) : Prop :=
  (forall f, In f (m_frames m) -> Nat.land BODY (fr_type f) <> 0 -> fr_type f = BODY /\ In (fr_name f) L) /\
  (forall f, In f (m_frames m) -> (Nat.land JOINT (fr_type f) <> 0 \/ Nat.land FIXED_JOINT (fr_type f) <> 0) -> In (fr_name f) J) /\
  (forall n, In n L -> exists k f, nth_error (m_frames m) k = Some f /\ fr_name f = n /\ fr_type f = BODY) /\
  (forall i j f g, nth_error (m_frames m) i = Some f -> nth_error (m_frames m) j = Some g -> fr_type f = BODY -> fr_type g = BODY ->
     fr_name f = fr_name g -> i = j).
Lemma Fr_frames m m' L J : m_frames m' = m_frames m -> Fr m L J -> Fr m' L J.
Proof. unfold Fr. intros ->. auto. Qed.
Lemma snoc_nth {A} (l : list A) x k y : nth_error (l ++ [x]) k = Some y -> nth_error l k = Some y \/ (k = length l /\ y = x).
Proof.
  intros H. destruct (Nat.lt_ge_cases k (length l)) as [K|K]; [left; rewrite nth_error_app1 in H; auto|].
  right. rewrite nth_error_app2 in H by lia. destruct (k - length l) as [|[|d]] eqn:E; cbn in H; try discriminate. split; [lia | congruence].
Qed.
Lemma snoc_old {A} (l : list A) x k y : nth_error l k = Some y -> nth_error (l ++ [x]) k = Some y.
Proof. intros H. rewrite nth_error_app1; [exact H | apply nth_error_Some; congruence]. Qed.
Lemma snoc_new {A} (l : list A) x : nth_error (l ++ [x]) (length l) = Some x.
Proof. rewrite nth_error_app2, Nat.sub_diag by lia. reflexivity. Qed.

Lemma Fr_body m m' L J f : m_frames m' = m_frames m ++ [f] -> fr_type f = BODY -> ~ In (fr_name f) L -> Fr m L J -> Fr m' (L ++ [fr_name f]) J.
Proof.
  intros E T N (A & B & C & D). unfold Fr. rewrite E. split; [|split; [|split]].
  - intros g Hg Hm. apply in_app_or in Hg. destruct Hg as [Hg|[<-|[]]].
    + destruct (A g Hg Hm). split; [assumption | apply in_or_app; auto].
    + split; [exact T | apply in_or_app; right; left; reflexivity].
  - intros g Hg Hm. apply in_app_or in Hg. destruct Hg as [Hg|[<-|[]]]; [exact (B g Hg Hm)|]. rewrite T in Hm. cbn in Hm. tauto.
  - intros n Hn. apply in_app_or in Hn. destruct Hn as [Hn|[<-|[]]].
    + destruct (C n Hn) as (k & g & K & R). exists k, g. split; [apply snoc_old; exact K | exact R].
    + exists (length (m_frames m)), f. split; [apply snoc_new | auto].
  - intros i j g h Hi Hj Tg Th En. apply snoc_nth in Hi. apply snoc_nth in Hj.
    destruct Hi as [Hi|[-> ->]], Hj as [Hj|[-> ->]]; [exact (D i j g h Hi Hj Tg Th En)| | |reflexivity]; exfalso; apply N.
    + rewrite <- En. apply (A g); [eapply nth_error_In; exact Hi | rewrite Tg; discriminate].
    + rewrite En. apply (A h); [eapply nth_error_In; exact Hj | rewrite Th; discriminate].
Qed.
Lemma Fr_joint m m' L J f : m_frames m' = m_frames m ++ [f] -> fr_type f = JOINT \/ fr_type f = FIXED_JOINT -> Fr m L J -> Fr m' L (J ++ [fr_name f]).
Proof.
  intros E T (A & B & C & D). assert (TB : fr_type f <> BODY) by (destruct T as [-> | ->]; discriminate).
  unfold Fr. rewrite E. split; [|split; [|split]].
  - intros g Hg Hm. apply in_app_or in Hg. destruct Hg as [Hg|[<-|[]]]; [exact (A g Hg Hm)|]. exfalso. destruct T as [T|T]; rewrite T in Hm; cbn in Hm; tauto.
  - intros g Hg Hm. apply in_or_app. apply in_app_or in Hg. destruct Hg as [Hg|[<-|[]]]; [left; exact (B g Hg Hm) | right; left; reflexivity].
  - intros n Hn. destruct (C n Hn) as (k & g & K & R). exists k, g. split; [apply snoc_old; exact K | exact R].
  - intros i j g h Hi Hj Tg Th En. apply snoc_nth in Hi. apply snoc_nth in Hj.
    destruct Hi as [Hi|[-> ->]], Hj as [Hj|[-> ->]]; [exact (D i j g h Hi Hj Tg Th En)| | |]; congruence.
Qed.
Lemma Fr_freshBody m L J n : Fr m L J -> ~ In n L -> forall g, In g (m_frames m) -> ~ matches n BODY g.
Proof. intros (A & _) N g Hg (M1 & M2). apply N. rewrite <- M1. exact (proj2 (A g Hg M2)). Qed.
Lemma Fr_freshJoint m L J n t : t = JOINT \/ t = FIXED_JOINT -> Fr m L J -> ~ In n J -> forall g, In g (m_frames m) -> ~ matches n t g.
Proof. intros T (_ & B & _) N g Hg (M1 & M2). apply N. rewrite <- M1. apply (B g Hg). destruct T as [-> | ->]; auto. Qed.
Lemma Fr_find m L J n : wellFormed m -> Fr m L J -> In n L -> exists k f, visitorBodyId m n = Ok m k /\ nth_error (m_frames m) k = Some f /\
  frameAt m k = f /\ fr_name f = n /\ fr_type f = BODY /\ fr_parentJoint f < m_njoints m.
Proof.
  intros W (A & _ & C & D) Hn. destruct (C n Hn) as (k & f & K & E1 & E2). exists k, f.
  assert (M : matches n BODY f) by (split; [exact E1 | rewrite E2; discriminate]).
  assert (Hx : existFrame m n BODY = true) by (apply existFrame_spec; exists f; split; [eapply nth_error_In; exact K | exact M]).
  split; [|split; [exact K|]; split; [unfold frameAt; apply nth_error_nth; exact K|]; split; [exact E1|]; split; [exact E2|]; apply (wf_frames _ W); eapply nth_error_In; exact K].
  unfold visitorBodyId. rewrite Hx. pose proof (getFrameId_spec m n BODY W) as G. destruct (getFrameId m n BODY) as [i|].
  - destruct G as [(_ & g & _ & _ & U)|(_ & U)]; [now rewrite (U k f K M)|]. exfalso. exact (U f (nth_error_In _ _ K) M).
  - exfalso. destruct G as (i & j & g & h & Hij & Hi & Hj & (M1 & M2) & (M3 & M4)).
    pose proof (A g (nth_error_In _ _ Hi) M2) as [T1 _]. pose proof (A h (nth_error_In _ _ Hj) M4) as [T2 _].
    pose proof (D i j g h Hi Hj T1 T2 ltac:(congruence)). lia.
Qed.

(* ---- what is kept for each link ---- *)
Definition isBody (m : Model) (k : nat) (n : string) (f : Frame) := nth_error (m_frames m) k = Some f /\ fr_name f = n /\ fr_type f = BODY.
Definition linked (m : Model) (e : Edge) : Prop := exists kf f kg g, isBody m kf (e_name e) f /\ isBody m kg (e_parent e) g /\
  match c_joint (e_conn e) with
  | None => fr_parentJoint f = fr_parentJoint g /\ fr_placement f = se3_mul (fr_placement g) (c_origin (e_conn e))
  | Some (j, _) => 0 < fr_parentJoint f < m_njoints m /\ fr_placement f = se3_Identity /\ parent m (fr_parentJoint f) = fr_parentJoint g /\
      placementOf m (fr_parentJoint f) = se3_mul (fr_placement g) (c_origin (e_conn e)) /\ jm_type (joint m (fr_parentJoint f)) = j /\
      nth (fr_parentJoint f) (m_names m) ""%string = c_name (e_conn e)
  end.
Lemma isBody_ext m m' k n f : ext m m' -> isBody m k n f -> isBody m' k n f.
Proof. intros (_ & E & _) (H & R). split; [exact (E _ _ H) | exact R]. Qed.
Lemma linked_ext m m' e : ext m m' -> linked m e -> linked m' e.
Proof.
  intros X (kf & f & kg & g & Hf & Hg & R). exists kf, f, kg, g. split; [exact (isBody_ext _ _ _ _ _ X Hf)|]. split; [exact (isBody_ext _ _ _ _ _ X Hg)|].
  destruct (c_joint (e_conn e)) as [[j lim]|]; [|exact R]. destruct R as (R1 & R2 & R3 & R4 & R5 & R6). destruct X as (X1 & _ & X3).
  destruct (X3 _ (proj2 R1)) as (Y1 & Y2 & Y3 & Y4). rewrite Y1, Y2, Y3, Y4. repeat split; auto; lia.
Qed.
Definition att (m : Model) (p : string * Inertia) (x : nat * SE3 * Inertia) : Prop :=
  snd x = snd p /\ exists k f, isBody m k (fst p) f /\ fst x = (fr_parentJoint f, fr_placement f).
Lemma att_ext m m' p x : ext m m' -> att m p x -> att m' p x.
Proof. intros X (H & k & f & B & R). split; [exact H|]. exists k, f. split; [exact (isBody_ext _ _ _ _ _ X B) | exact R]. Qed.
Lemma Forall2_imp {A B} (P Q : A -> B -> Prop) l l' : (forall a b, P a b -> Q a b) -> Forall2 P l l' -> Forall2 Q l l'.
Proof. intros H F. induction F; constructor; auto. Qed.

Definition nz {A} (x : A * Inertia) : bool := negb (isZeroInertia (snd x)).
Definition attached (m : Model) (P : list (string * Inertia)) (l : list (nat * SE3 * Inertia)) : Prop :=
  Forall2 (att m) (filter nz P) (filter nz l) /\ massSum l = fold_right Rplus 0%R (map (fun p => mass (snd p)) P).
Lemma isZero_mass Y : isZeroInertia Y = true -> mass Y = 0%R.
Proof. unfold isZeroInertia. destruct (Req_EM_T (mass Y) 0); [auto | discriminate]. Qed.
Lemma massSum_app a b : massSum (a ++ b) = (massSum a + massSum b)%R.
Proof. unfold massSum. rewrite map_app. apply rsum_app. Qed.
Lemma attached_zero m P l j pl : attached m P l -> attached m P (l ++ [(j, pl, inertia_Zero)]).
Proof.
  intros (F & Ms). unfold attached. rewrite filter_app. cbn [filter]. unfold nz at 3. cbn [snd]. rewrite isZero_Zero. cbn [negb]. rewrite app_nil_r.
  split; [exact F|]. rewrite massSum_app, Ms. unfold massSum. cbn. ring.
Qed.
Lemma attached_ext m m' P l : ext m m' -> attached m P l -> attached m' P l.
Proof. intros X (F & Ms). split; [|exact Ms]. revert F. apply Forall2_imp. intros a b. now apply att_ext. Qed.
Lemma attached_skip m P l n Y : isZeroInertia Y = true -> attached m P l -> attached m (P ++ [(n, Y)]) l.
Proof.
  intros Z (F & Ms). unfold attached. rewrite filter_app. cbn [filter]. unfold nz at 2. cbn [snd]. rewrite Z. cbn [negb]. rewrite app_nil_r.
  split; [exact F|]. rewrite Ms, map_app, rsum_app. cbn. rewrite (isZero_mass Y Z). ring.
Qed.
Lemma attached_add m P l n Y k f : isBody m k n f -> attached m P l -> attached m (P ++ [(n, Y)]) (l ++ [(fr_parentJoint f, fr_placement f, Y)]).
Proof.
  intros B (F & Ms). unfold attached. rewrite !filter_app. split.
  - apply Forall2_app; [exact F|]. cbn [filter]. unfold nz. cbn [snd]. destruct (negb (isZeroInertia Y)); constructor; [|constructor].
    split; [reflexivity|]. exists k, f. auto.
  - rewrite massSum_app, Ms, map_app, rsum_app. unfold massSum. cbn. ring.
Qed.
