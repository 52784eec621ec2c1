(* the functions of joint-configuration.hxx act joint by joint *)
Require Import Reals Lra Arith Bool List Lia FunctionalExtensionality.
From Verif Require Import Vec3 Spatial Joints JointFacts Model Spec_Model ModelFacts ModelFacts2 Kinematics Rot ExpLog LieGroup Spec_Lie LieFacts3 LieFacts4 LieFacts5.
Import ListNotations.
Local Open Scope nat_scope.

Definition Piece := (LG * nat * nat)%type.
Inductive tiles : list Piece -> nat -> nat -> nat -> nat -> Prop :=
| t_nil a b : tiles [] a b a b
| t_cons g a b l e f : tiles l (a + lg_nq g) (b + lg_nv g) e f -> tiles ((g, a, b) :: l) a b e f.
Lemma tiles_inv p l a b e f : tiles (p :: l) a b e f -> exists g, p = (g, a, b) /\ tiles l (a + lg_nq g) (b + lg_nv g) e f.
Proof. intros H. inversion H; subst. eauto. Qed.
Lemma tiles_inil a b e f : tiles [] a b e f -> e = a /\ f = b.
Proof. intros H. inversion H; subst. auto. Qed.
Lemma tiles_app l1 : forall l2 a b c d e f, tiles l1 a b c d -> tiles l2 c d e f -> tiles (l1 ++ l2) a b e f.
Proof. induction l1 as [|p l1 IH]; intros l2 a b c d e f H K; [apply tiles_inil in H; destruct H as [-> ->]; exact K|]; apply tiles_inv in H; destruct H as [g [-> H5]]. cbn. constructor. eapply IH; eassumption. Qed.
Definition moved (x y : nat) (p : Piece) : Piece := (fst (fst p), snd (fst p) + x, snd p + y).
Lemma tiles_move x y l : forall a b e f, tiles l a b e f -> tiles (map (moved x y) l) (a + x) (b + y) (e + x) (f + y).
Proof.
  induction l as [|p l IH]; intros a b e f H; [apply tiles_inil in H; destruct H as [-> ->]; constructor|]; apply tiles_inv in H; destruct H as [g [-> H5]]; cbn; constructor.
  apply IH in H5. cbn [fst snd]. replace (a + x + lg_nq g) with (a + lg_nq g + x) by lia. replace (b + y + lg_nv g) with (b + lg_nv g + y) by lia. exact H5.
Qed.
Definition goPieces := fix go (l : list (SE3 * Joint)) (iq iv : nat) : list Piece :=
  match l with
  | nil => nil
  | (_, s) :: l => map (moved iq iv) (pieces s) ++ go l (iq + jnq s) (iv + jnv s)
  end.
Lemma pieces_composite l : pieces (JComposite l) = goPieces l 0 0. Proof. reflexivity. Qed.
Lemma jnq_cons p j l : jnq (JComposite ((p, j) :: l)) = jnq j + jnq (JComposite l). Proof. reflexivity. Qed.
Lemma jnv_cons p j l : jnv (JComposite ((p, j) :: l)) = jnv j + jnv (JComposite l). Proof. reflexivity. Qed.
Lemma group_dims s : lg_nq (lieGroup1 s) = nq1 s /\ lg_nv (lieGroup1 s) = nv1 s.
Proof. destruct s; split; reflexivity. Qed.
Lemma pieces_tiles j : tiles (pieces j) 0 0 (jnq j) (jnv j).
Proof.
  induction j as [j|j s o|l IH] using Joint_ind'.
  - cbn [pieces jnq jnv]. destruct (group_dims j) as [A B]. rewrite <- A, <- B. apply t_cons. cbn [Nat.add]. constructor.
  - constructor.
  - rewrite pieces_composite. cut (forall a b, tiles (goPieces l a b) a b (a + jnq (JComposite l)) (b + jnv (JComposite l))); [intros H; apply (H 0 0)|].
    induction l as [|[p j] l IHl]; intros a b.
    + cbn. rewrite !Nat.add_0_r. constructor.
    + rewrite jnq_cons, jnv_cons. cbn [goPieces]. inversion IH; subst. eapply tiles_app.
      * cbn [snd] in *. apply (tiles_move a b) in H1. cbn [Nat.add] in H1. rewrite (Nat.add_comm _ a), (Nat.add_comm _ b) in H1. exact H1.
      * rewrite !Nat.add_assoc. apply IHl. assumption.
Qed.
Lemma leaf_pieces j : forall g oq ov, In (g, oq, ov) (pieces j) <-> exists s, leaf j oq ov s /\ g = lieGroup1 s.
Proof.
  induction j as [j|j s o|l IH] using Joint_ind'; intros g oq ov.
  - cbn. split.
    + intros [E|[]]. injection E as <- <- <-. exists j. split; [constructor | reflexivity].
    + intros [s [L ->]]. inversion L; subst. left. reflexivity.
  - cbn. split; [intros [] | intros [x [L _]]; inversion L].
  - rewrite pieces_composite. cut (forall a b, In (g, oq, ov) (goPieces l a b) <-> exists l1 p j l2 x y s, l = l1 ++ (p, j) :: l2 /\ leaf j x y s /\ g = lieGroup1 s /\ oq = a + jnq (JComposite l1) + x /\ ov = b + jnv (JComposite l1) + y).
    { intros H. rewrite (H 0 0). split.
      - intros [l1 [p [j [l2 [x [y [s [-> [L [-> [-> ->]]]]]]]]]]]. exists s. split; [|reflexivity]. cbn [Nat.add]. constructor. exact L.
      - intros [s [L ->]]. inversion L; subst. exists l1, p, j, l2, oq0, ov0, s. repeat split; assumption || reflexivity. }
    induction l as [|[p j] l IHl]; intros a b.
    + cbn. split; [intros [] | intros [l1 [p [j [l2 [x [y [s [E _]]]]]]]]; destruct l1; discriminate].
    + cbn [goPieces]. inversion IH as [|? ? Hj Hl]; subst. cbn [snd] in Hj. rewrite in_app_iff, (IHl Hl), in_map_iff. split.
      * intros [[[[g' x] y] [E I]]|[l1 [p' [j' [l2 [x [y [s [-> [L [-> [-> ->]]]]]]]]]]]].
        -- unfold moved in E. cbn in E. injection E as -> <- <-. apply Hj in I. destruct I as [s [L ->]]. exists [], p, j, l, x, y, s. split; [reflexivity|]. split; [exact L|]. split; [reflexivity|]. cbn. lia.
        -- exists ((p, j) :: l1), p', j', l2, x, y, s. rewrite jnq_cons, jnv_cons. split; [reflexivity|]. split; [exact L|]. split; [reflexivity|]. lia.
      * intros [l1 [p' [j' [l2 [x [y [s [E [L [-> [-> ->]]]]]]]]]]]. destruct l1 as [|[p1 j1] l1].
        -- injection E as <- <- <-. left. exists (lieGroup1 s, x, y). split; [unfold moved; cbn; f_equal; [f_equal|]; lia|]. apply Hj. exists s. auto.
        -- injection E as <- <- ->. right. exists l1, p', j', l2, x, y, s. rewrite jnq_cons, jnv_cons. repeat split; try assumption; lia.
Qed.
Lemma joint_tiles m i : wellFormed m -> 0 < i < m_njoints m -> tiles (jointPieces m i) (sum (firstn i (m_nqs m))) (sum (firstn i (m_nvs m))) (sum (firstn (S i) (m_nqs m))) (sum (firstn (S i) (m_nvs m))).
Proof.
  intros W Hi. destruct (wf_joint _ W i Hi) as [_ [Q [V [_ [NQ [NV _]]]]]].
  assert (Lq : i < length (m_nqs m)) by (destruct (wf_lengths _ W) as [_ [_ [_ [_ [-> _]]]]]; lia).
  assert (Lv : i < length (m_nvs m)) by (destruct (wf_lengths _ W) as [_ [_ [_ [_ [_ [_ [-> _]]]]]]]; lia).
  rewrite !sum_firstn_S by assumption. fold (nqOf m i) (nvOf m i). rewrite <- NQ, <- NV. unfold jointPieces.
  destruct (isMimic (joint m i)) eqn:M.
  - unfold isMimic in M. destruct (jm_type (joint m i)); try discriminate. cbn. rewrite !Nat.add_0_r. constructor.
  - destruct (wf_range _ W i Hi M) as [Eq Ev]. rewrite <- Eq, <- Ev, Q, V. pose proof (tiles_move (idx_q m i) (idx_v m i) _ _ _ _ _ (pieces_tiles (jm_type (joint m i)))) as T.
    cbn [Nat.add] in T. rewrite (Nat.add_comm (jnq _)), (Nat.add_comm (jnv _)) in T. exact T.
Qed.
Lemma model_tiles m : wellFormed m -> tiles (modelPieces m) 0 0 (m_nq m) (m_nv m).
Proof.
  intros W. pose proof (wf_n _ W) as N1. destruct (wf_zero _ W) as [Z1 [Z2 _]].
  assert (Lq : length (m_nqs m) = m_njoints m) by (destruct (wf_lengths _ W) as [_ [_ [_ [_ [-> _]]]]]; reflexivity).
  assert (Lv : length (m_nvs m) = m_njoints m) by (destruct (wf_lengths _ W) as [_ [_ [_ [_ [_ [_ [-> _]]]]]]]; reflexivity).
  assert (G : forall n, n <= m_njoints m - 1 -> tiles (flat_map (jointPieces m) (seq 1 n)) 0 0 (sum (firstn (S n) (m_nqs m))) (sum (firstn (S n) (m_nvs m)))).
  { induction n as [|n IH]; intros H.
    - rewrite !sum_firstn_S by lia. cbn [firstn]. fold (nqOf m 0) (nvOf m 0). rewrite Z1, Z2. constructor.
    - rewrite seq_S, flat_map_app. eapply tiles_app; [apply IH; lia|]. cbn [flat_map]. rewrite app_nil_r. apply (joint_tiles m (1 + n) W). lia. }
  specialize (G _ (le_n _)). destruct (wf_total _ W) as [-> [-> _]].
  replace (sum (m_nqs m)) with (sum (firstn (S (m_njoints m - 1)) (m_nqs m))) by (f_equal; replace (S (m_njoints m - 1)) with (length (m_nqs m)) by lia; apply firstn_all).
  replace (sum (m_nvs m)) with (sum (firstn (S (m_njoints m - 1)) (m_nvs m))) by (f_equal; replace (S (m_njoints m - 1)) with (length (m_nvs m)) by lia; apply firstn_all).
  exact G.
Qed.
Lemma leaf_model m iq iv s : wellFormed m -> leafOf m iq iv s -> In (lieGroup1 s, iq, iv) (modelPieces m).
Proof.
  intros W [i [oq [ov [Hi [L [-> ->]]]]]]. unfold modelPieces. apply in_flat_map. exists i. split; [apply in_seq; lia|].
  unfold jointPieces. destruct (wf_joint _ W i Hi) as [_ [Q [V _]]]. rewrite Q, V. apply in_map_iff. exists (lieGroup1 s, oq, ov). split; [cbn; f_equal; [f_equal|]; lia|].
  apply leaf_pieces. exists s. auto.
Qed.
Lemma model_leaf m g iq iv : wellFormed m -> In (g, iq, iv) (modelPieces m) -> exists s, leafOf m iq iv s /\ g = lieGroup1 s.
Proof.
  intros W H. apply in_flat_map in H. destruct H as [i [Hi H]]. apply in_seq in Hi. unfold jointPieces in H. apply in_map_iff in H. destruct H as [[[g' oq] ov] [E I]].
  cbn in E. injection E as -> <- <-. apply leaf_pieces in I. destruct I as [s [L ->]]. exists s. split; [|reflexivity]. exists i, oq, ov.
  assert (Hi' : 0 < i < m_njoints m) by lia. destruct (wf_joint _ W i Hi') as [_ [-> [-> _]]]. repeat split; try lia. exact L.
Qed.
(* ---------- folds over tiles ---------- *)
Lemma tiles_le l : forall a b e f, tiles l a b e f -> a <= e /\ b <= f.
Proof. induction l as [|p l IH]; intros a b e f H; [apply tiles_inil in H; destruct H as [-> ->]|apply tiles_inv in H; destruct H as [g0 [-> H5]]]; [lia|]. apply IH in H5. lia. Qed.
Lemma tiles_in l : forall a b e f g iq iv, tiles l a b e f -> In (g, iq, iv) l -> a <= iq /\ iq + lg_nq g <= e /\ b <= iv /\ iv + lg_nv g <= f.
Proof.
  induction l as [|p l IH]; intros a b e f g iq iv H I; [apply tiles_inil in H; destruct H as [-> ->]|apply tiles_inv in H; destruct H as [g0 [-> H5]]]; [destruct I|]. destruct I as [E|I].
  - injection E as <- <- <-. apply tiles_le in H5. lia.
  - specialize (IH _ _ _ _ _ _ _ H5 I). lia.
Qed.
Lemma tiles_cover l : forall a b e f k, tiles l a b e f -> a <= k < e -> exists g iq iv, In (g, iq, iv) l /\ iq <= k < iq + lg_nq g.
Proof.
  induction l as [|p l IH]; intros a b e f k H K; [apply tiles_inil in H; destruct H as [-> ->]|apply tiles_inv in H; destruct H as [g0 [-> H5]]]; [lia|]. destruct (Nat.lt_ge_cases k (a + lg_nq g0)) as [L|L].
  - exists g0, a, b. split; [left; reflexivity | lia].
  - destruct (IH _ _ _ _ k H5 ltac:(lia)) as [g' [iq [iv [I B]]]]. exists g', iq, iv. split; [right; exact I | exact B].
Qed.
Lemma tiles_coverv l : forall a b e f k, tiles l a b e f -> b <= k < f -> exists g iq iv, In (g, iq, iv) l /\ iv <= k < iv + lg_nv g.
Proof.
  induction l as [|p l IH]; intros a b e f k H K; [apply tiles_inil in H; destruct H as [-> ->]|apply tiles_inv in H; destruct H as [g0 [-> H5]]]; [lia|]. destruct (Nat.lt_ge_cases k (b + lg_nv g0)) as [L|L].
  - exists g0, a, b. split; [left; reflexivity | lia].
  - destruct (IH _ _ _ _ k H5 ltac:(lia)) as [g' [iq [iv [I B]]]]. exists g', iq, iv. split; [right; exact I | exact B].
Qed.
Lemma write_in i n x out k : i <= k < i + n -> writeSeg i n x out k = x (k - i).
Proof. intros H. unfold writeSeg. rewrite (proj2 (Nat.leb_le i k)), (proj2 (Nat.ltb_lt k (i + n))) by lia. reflexivity. Qed.
Lemma write_out i n x out k : k < i \/ i + n <= k -> writeSeg i n x out k = out k.
Proof. intros H. unfold writeSeg. destruct (Nat.leb_spec i k), (Nat.ltb_spec k (i + n)); cbn; reflexivity || lia. Qed.
(* a fold that writes the configuration segments *)
Definition foldQ (F : LG -> nat -> nat -> vec) (l : list Piece) (out : vec) : vec :=
  fold_left (fun out (p : Piece) => let '(g, iq, iv) := p in writeSeg iq (lg_nq g) (F g iq iv) out) l out.
Lemma foldQ_cons F g iq iv l out : foldQ F ((g, iq, iv) :: l) out = foldQ F l (writeSeg iq (lg_nq g) (F g iq iv) out). Proof. reflexivity. Qed.
Lemma foldQ_out F l : forall a b e f out k, tiles l a b e f -> k < a \/ e <= k -> foldQ F l out k = out k.
Proof.
  induction l as [|p l IH]; intros a b e f out k H K; [apply tiles_inil in H; destruct H as [-> ->]|apply tiles_inv in H; destruct H as [g0 [-> H5]]]; [reflexivity|]. rewrite foldQ_cons. pose proof (tiles_le _ _ _ _ _ H5).
  rewrite (IH _ _ _ _ _ k H5) by lia. apply write_out. lia.
Qed.
Lemma foldQ_in F l : forall a b e f out g iq iv, tiles l a b e f -> In (g, iq, iv) l -> eqTo (lg_nq g) (shift iq (foldQ F l out)) (F g iq iv).
Proof.
  induction l as [|p l IH]; intros a b e f out g iq iv H I; [apply tiles_inil in H; destruct H as [-> ->]|apply tiles_inv in H; destruct H as [g0 [-> H5]]]; [destruct I|]. rewrite foldQ_cons. destruct I as [E|I].
  - injection E as -> -> ->. intros k Hk. unfold shift. rewrite (foldQ_out F l _ _ _ _ _ (iq + k) H5) by lia. rewrite write_in by lia. f_equal. lia.
  - apply (IH _ _ _ _ _ _ _ _ H5 I).
Qed.
Definition foldV (F : LG -> nat -> nat -> vec) (l : list Piece) (out : vec) : vec :=
  fold_left (fun out (p : Piece) => let '(g, iq, iv) := p in writeSeg iv (lg_nv g) (F g iq iv) out) l out.
Lemma foldV_cons F g iq iv l out : foldV F ((g, iq, iv) :: l) out = foldV F l (writeSeg iv (lg_nv g) (F g iq iv) out). Proof. reflexivity. Qed.
Lemma foldV_out F l : forall a b e f out k, tiles l a b e f -> k < b \/ f <= k -> foldV F l out k = out k.
Proof.
  induction l as [|p l IH]; intros a b e f out k H K; [apply tiles_inil in H; destruct H as [-> ->]|apply tiles_inv in H; destruct H as [g0 [-> H5]]]; [reflexivity|]. rewrite foldV_cons. pose proof (tiles_le _ _ _ _ _ H5).
  rewrite (IH _ _ _ _ _ k H5) by lia. apply write_out. lia.
Qed.
Lemma foldV_in F l : forall a b e f out g iq iv, tiles l a b e f -> In (g, iq, iv) l -> eqTo (lg_nv g) (shift iv (foldV F l out)) (F g iq iv).
Proof.
  induction l as [|p l IH]; intros a b e f out g iq iv H I; [apply tiles_inil in H; destruct H as [-> ->]|apply tiles_inv in H; destruct H as [g0 [-> H5]]]; [destruct I|]. rewrite foldV_cons. destruct I as [E|I].
  - injection E as -> -> ->. intros k Hk. unfold shift. rewrite (foldV_out F l _ _ _ _ _ (iv + k) H5) by lia. rewrite write_in by lia. f_equal. lia.
  - apply (IH _ _ _ _ _ _ _ _ H5 I).
Qed.
(* ---------- the functions ---------- *)
Section model.
Variable eps : R.
Variable m : Model.
Hypothesis W : wellFormed m.
Lemma integrate_leaf q v out iq iv s : leafOf m iq iv s -> eqTo (nq1 s) (shift iq (integrate eps m q v out)) (lg_integrate eps (lieGroup1 s) (shift iq q) (shift iv v)).
Proof.
  intros L. rewrite <- (proj1 (group_dims s)).
  exact (foldQ_in (fun g iq iv => lg_integrate eps g (shift iq q) (shift iv v)) _ _ _ _ _ out _ _ _ (model_tiles m W) (leaf_model m iq iv s W L)).
Qed.
Lemma integrate_rest q v out k : m_nq m <= k -> integrate eps m q v out k = out k.
Proof. intros H. exact (foldQ_out (fun g iq iv => lg_integrate eps g (shift iq q) (shift iv v)) _ _ _ _ _ out k (model_tiles m W) (or_intror H)). Qed.
Lemma interpolate_leaf q0 q1 u out iq iv s : leafOf m iq iv s -> eqTo (nq1 s) (shift iq (interpolate eps m q0 q1 u out)) (lg_interpolate eps (lieGroup1 s) (shift iq q0) (shift iq q1) u).
Proof.
  intros L. rewrite <- (proj1 (group_dims s)).
  exact (foldQ_in (fun g iq _ => lg_interpolate eps g (shift iq q0) (shift iq q1) u) _ _ _ _ _ out _ _ _ (model_tiles m W) (leaf_model m iq iv s W L)).
Qed.
Lemma difference_leaf q0 q1 out iq iv s : leafOf m iq iv s -> eqTo (nv1 s) (shift iv (difference eps m q0 q1 out)) (lg_difference eps (lieGroup1 s) (shift iq q0) (shift iq q1)).
Proof.
  intros L. rewrite <- (proj2 (group_dims s)).
  exact (foldV_in (fun g iq _ => lg_difference eps g (shift iq q0) (shift iq q1)) _ _ _ _ _ out _ _ _ (model_tiles m W) (leaf_model m iq iv s W L)).
Qed.
Lemma neutral_leaf out iq iv s : leafOf m iq iv s -> eqTo (nq1 s) (shift iq (neutral m out)) (lg_neutral (lieGroup1 s)).
Proof.
  intros L. rewrite <- (proj1 (group_dims s)).
  exact (foldQ_in (fun g _ _ => lg_neutral g) _ _ _ _ _ out _ _ _ (model_tiles m W) (leaf_model m iq iv s W L)).
Qed.
(* every coordinate belongs to a joint *)
Lemma leaves_cover_q k : k < m_nq m -> exists iq iv s, leafOf m iq iv s /\ iq <= k < iq + nq1 s.
Proof.
  intros H. destruct (tiles_cover _ _ _ _ _ k (model_tiles m W) ltac:(lia)) as [g [iq [iv [I B]]]].
  destruct (model_leaf m g iq iv W I) as [s [L ->]]. exists iq, iv, s. rewrite <- (proj1 (group_dims s)). auto.
Qed.
Lemma leaves_cover_v k : k < m_nv m -> exists iq iv s, leafOf m iq iv s /\ iv <= k < iv + nv1 s.
Proof.
  intros H. destruct (tiles_coverv _ _ _ _ _ k (model_tiles m W) ltac:(lia)) as [g [iq [iv [I B]]]].
  destruct (model_leaf m g iq iv W I) as [s [L ->]]. exists iq, iv, s. rewrite <- (proj2 (group_dims s)). auto.
Qed.
Lemma leaf_in iq iv s : leafOf m iq iv s -> iq + nq1 s <= m_nq m /\ iv + nv1 s <= m_nv m.
Proof.
  intros L. destruct (group_dims s) as [<- <-]. pose proof (tiles_in _ _ _ _ _ _ _ _ (model_tiles m W) (leaf_model m iq iv s W L)). lia.
Qed.
End model.
