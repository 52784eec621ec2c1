(* the functions of joint-configuration.hxx, continued *)
Require Import Reals Lra Arith Bool List Lia FunctionalExtensionality.
From Verif Require Import Vec3 Spatial Joints JointFacts Model Spec_Model ModelFacts ModelFacts2 Kinematics Rot ExpLog LieGroup Spec_Lie LieFacts3 LieFacts4 LieFacts5 LieFacts6.
Import ListNotations.
Local Open Scope nat_scope.

Lemma eqTo_shift n i p q : (forall k, i <= k < i + n -> p k = q k) -> eqTo n (shift i p) (shift i q).
Proof. intros H k Hk. apply H. lia. Qed.
Lemma norm2_ext' n p q : eqTo n p q -> norm2Of n p = norm2Of n q.
Proof. apply norm2_ext. Qed.
Lemma vnormalize_ext n p q : eqTo n p q -> eqTo n (vnormalize n p) (vnormalize n q).
Proof. intros H k Hk. unfold vnormalize. rewrite (norm2_ext n p q H), (H k Hk). reflexivity. Qed.
Lemma join_ext n m p p' q q' : eqTo n p p' -> eqTo m q q' -> eqTo (n + m) (join n p q) (join n p' q').
Proof. intros H K k Hk. unfold join. destruct (Nat.ltb_spec k n); [apply H; assumption | apply K; lia]. Qed.
Lemma eqTo_le n m p q : n <= m -> eqTo m p q -> eqTo n p q.
Proof. intros L H k Hk. apply H. lia. Qed.
Lemma eqTo_sh i n p q : eqTo (i + n) p q -> eqTo n (shift i p) (shift i q).
Proof. intros H k Hk. apply H. lia. Qed.
Lemma normalize_ext g : forall p q, eqTo (lg_nq g) p q -> eqTo (lg_nq g) (lg_normalize g p) (lg_normalize g q).
Proof.
  induction g as [n| | | | |a IHa b IHb]; intros p q H; cbn [lg_normalize lg_nq] in *.
  - exact H.
  - apply vnormalize_ext, H.
  - apply vnormalize_ext, H.
  - apply (join_ext 2 2); [eapply eqTo_le; [|exact H]; lia | apply vnormalize_ext, (eqTo_sh 2 2), H].
  - apply (join_ext 3 4); [eapply eqTo_le; [|exact H]; lia | apply vnormalize_ext, (eqTo_sh 3 4), H].
  - apply join_ext; [apply IHa; eapply eqTo_le; [|exact H]; lia | apply IHb, eqTo_sh, H].
Qed.
Lemma isN_ext g prec : forall p q, eqTo (lg_nq g) p q -> lg_isNormalized g p prec = lg_isNormalized g q prec.
Proof.
  induction g as [n| | | | |a IHa b IHb]; intros p q H; cbn [lg_isNormalized lg_nq] in *.
  - reflexivity.
  - rewrite (norm2_ext 2 p q H). reflexivity.
  - rewrite (norm2_ext 4 p q H). reflexivity.
  - rewrite (norm2_ext 2 _ _ (eqTo_sh 2 2 _ _ H)). reflexivity.
  - rewrite (norm2_ext 4 _ _ (eqTo_sh 3 4 _ _ H)). reflexivity.
  - f_equal; [apply IHa; eapply eqTo_le; [|exact H]; lia | apply IHb, eqTo_sh, H].
Qed.
(* ---------- normalize, in place ---------- *)
Definition foldN (l : list Piece) (q : vec) : vec :=
  fold_left (fun q (p : Piece) => let '(g, iq, _) := p in writeSeg iq (lg_nq g) (lg_normalize g (shift iq q)) q) l q.
Lemma foldN_cons g iq iv l q : foldN ((g, iq, iv) :: l) q = foldN l (writeSeg iq (lg_nq g) (lg_normalize g (shift iq q)) q). Proof. reflexivity. Qed.
Lemma foldN_out l : forall a b e f q k, tiles l a b e f -> k < a \/ e <= k -> foldN l q k = q k.
Proof.
  induction l as [|p l IH]; intros a b e f q k H K; [reflexivity|]. apply tiles_inv in H. destruct H as [g [-> H]]. rewrite foldN_cons. pose proof (tiles_le _ _ _ _ _ H).
  rewrite (IH _ _ _ _ _ k H) by lia. apply write_out. lia.
Qed.
Lemma foldN_in l : forall a b e f q g iq iv, tiles l a b e f -> In (g, iq, iv) l -> eqTo (lg_nq g) (shift iq (foldN l q)) (lg_normalize g (shift iq q)).
Proof.
  induction l as [|p l IH]; intros a b e f q g iq iv H I; [destruct I|]. apply tiles_inv in H. destruct H as [g0 [-> H]]. rewrite foldN_cons. destruct I as [E|I].
  - injection E as -> -> ->. intros k Hk. unfold shift at 1. rewrite (foldN_out l _ _ _ _ _ (iq + k) H) by lia. rewrite write_in by lia. f_equal. lia.
  - pose proof (tiles_in _ _ _ _ _ _ _ _ H I) as B. intros k Hk. rewrite (IH _ _ _ _ _ _ _ _ H I k Hk). apply normalize_ext; [|exact Hk].
    apply eqTo_shift. intros j Hj. apply write_out. lia.
Qed.
Section model.
Variable m : Model.
Hypothesis W : wellFormed m.
Lemma normalize_leaf q iq iv s : leafOf m iq iv s -> eqTo (nq1 s) (shift iq (normalize m q)) (lg_normalize (lieGroup1 s) (shift iq q)).
Proof.
  intros L. rewrite <- (proj1 (group_dims s)). exact (foldN_in _ _ _ _ _ q _ _ _ (model_tiles m W) (leaf_model m iq iv s W L)).
Qed.
Lemma normalize_rest q k : m_nq m <= k -> normalize m q k = q k.
Proof. intros H. exact (foldN_out _ _ _ _ _ q k (model_tiles m W) (or_intror H)). Qed.
Lemma leaf_cases (P : LG -> nat -> nat -> Prop) : (forall g iq iv, In (g, iq, iv) (modelPieces m) -> P g iq iv) <-> (forall iq iv s, leafOf m iq iv s -> P (lieGroup1 s) iq iv).
Proof.
  split; intros H.
  - intros iq iv s L. apply H. apply leaf_model; assumption.
  - intros g iq iv I. destruct (model_leaf m g iq iv W I) as [s [L ->]]. apply H, L.
Qed.
(* ---------- isNormalized ---------- *)
Lemma isNormalized_all q prec : isNormalized m q prec = true <-> forall iq iv s, leafOf m iq iv s -> lg_isNormalized (lieGroup1 s) (shift iq q) prec = true.
Proof.
  rewrite <- (leaf_cases (fun g iq _ => lg_isNormalized g (shift iq q) prec = true)). unfold isNormalized. generalize (modelPieces m). 
  assert (F : forall l, fold_left (fun (b : bool) (p : Piece) => let '(g, iq, _) := p in if b then lg_isNormalized g (shift iq q) prec else false) l false = false) by (induction l as [|[[g iq] iv] l IH]; [reflexivity | exact IH]).
  intros l. induction l as [|[[g iq] iv] l IH]; cbn [fold_left].
  - split; [intros _ ? ? ? [] | reflexivity].
  - destruct (lg_isNormalized g (shift iq q) prec) eqn:E.
    + etransitivity; [exact IH|]. split.
      * intros H g' i' j' [X|X]; [injection X as <- <- <-; exact E | apply (H g' i' j' X)].
      * intros H g' i' j' X. apply (H g' i' j'). right. exact X.
    + split.
      * intros H. exfalso. pose proof (eq_trans (eq_sym H) (F l)). discriminate.
      * intros H. rewrite (H g iq iv (or_introl eq_refl)) in E. discriminate.
Qed.
Lemma isNormalized_valid q : validConf m q <-> forall prec, (0 < prec)%R -> isNormalized m q prec = true.
Proof.
  split.
  - intros V prec P. apply isNormalized_all. intros iq iv s L. exact (proj1 (isN_iff _ _) (V _ _ _ L) prec P).
  - intros H iq iv s L. apply isN_iff. intros prec P. exact (proj1 (isNormalized_all q prec) (H prec P) iq iv s L).
Qed.
Lemma neutral_valid out : validConf m (neutral m out).
Proof.
  intros iq iv s L. eapply on_ext; [|apply neutral_on]. rewrite (proj1 (group_dims s)). intros k Hk. symmetry. exact (neutral_leaf m W out iq iv s L k Hk).
Qed.
Lemma normalize_valid q : (forall iq iv s, leafOf m iq iv s -> nonzeroParts (lieGroup1 s) (shift iq q)) -> validConf m (normalize m q).
Proof.
  intros N iq iv s L. eapply on_ext; [|apply normalize_on; apply (N _ _ _ L)]. rewrite (proj1 (group_dims s)). intros k Hk. symmetry. exact (normalize_leaf q iq iv s L k Hk).
Qed.
Lemma normalize_same q : validConf m q -> forall k, normalize m q k = q k.
Proof.
  intros V k. destruct (Nat.lt_ge_cases k (m_nq m)) as [H|H]; [|apply normalize_rest; exact H].
  destruct (leaves_cover_q m W k H) as [iq [iv [s [L B]]]]. pose proof (normalize_leaf q iq iv s L (k - iq) ltac:(lia)) as E.
  pose proof (normalize_id _ _ (V _ _ _ L) (k - iq)) as F. rewrite (proj1 (group_dims s)) in F. rewrite F in E by lia. unfold shift in E. replace (iq + (k - iq)) with k in E by lia. exact E.
Qed.
Lemma euclidean_lt k : euclidean m k -> k < m_nq m.
Proof. intros [iq [iv [s [j [L [E ->]]]]]]. apply euclid_lt in E. rewrite (proj1 (group_dims s)) in E. pose proof (leaf_in m W iq iv s L). lia. Qed.
Lemma normalize_keeps q k : euclidean m k -> normalize m q k = q k.
Proof.
  intros [iq [iv [s [j [L [E ->]]]]]]. pose proof (euclid_lt _ _ E) as B. rewrite (proj1 (group_dims s)) in B. pose proof (normalize_leaf q iq iv s L j B) as X.
  rewrite normalize_euclid in X by exact E. exact X.
Qed.
(* ---------- randomConfiguration ---------- *)
Variables lower upper : nat -> option R.
Definition stepR (r : vec) (acc : Res vec nat) (p : Piece) : Res vec nat := let '(g, iq, _) := p in
    match acc with
    | Ok out c => match lg_random g (fun k => lower (iq + k)%nat) (fun k => upper (iq + k)%nat) (shift c r) with
                  | Some (q, c') => Ok (writeSeg iq (lg_nq g) q out) (c + c')%nat
                  | None => Throw out
                  end
    | e => e
    end.
Lemma foldR_throw r l out : fold_left (stepR r) l (Throw out) = Throw out.
Proof. induction l as [|[[g iq] iv] l IH]; [reflexivity | exact IH]. Qed.
Definition infinite (g : LG) (iq : nat) : Prop := exists k, euclid g k /\ (lower (iq + k) = None \/ upper (iq + k) = None).
Lemma foldR_spec r : stream r -> orderedLimits lower upper -> forall l a b e f out c, tiles l a b e f ->
  (exists out' c', fold_left (stepR r) l (Ok out c) = Ok out' c' /\ (forall k, k < a \/ e <= k -> out' k = out k) /\
     (forall g iq iv, In (g, iq, iv) l -> ~ infinite g iq /\ onGroup g (shift iq out') /\ forall k, euclid g k -> inLimit lower upper (iq + k) (out' (iq + k)))) \/
  (exists out', fold_left (stepR r) l (Ok out c) = Throw out' /\ exists g iq iv, In (g, iq, iv) l /\ infinite g iq).
Proof.
  intros SR OL. induction l as [|p l IH]; intros a b e f out c T.
  - left. exists out, c. split; [reflexivity|]. split; [reflexivity | intros ? ? ? []].
  - apply tiles_inv in T. destruct T as [g [-> T]]. cbn [fold_left]. unfold stepR at 2 4.
    destruct (lg_random g (fun k => lower (a + k)) (fun k => upper (a + k)) (shift c r)) as [[q c1]|] eqn:E.
    + destruct (IH _ _ _ _ (writeSeg a (lg_nq g) q out) (c + c1) T) as [[out' [c' [F [K P]]]]|[out' [F [g' [iq [iv [I N]]]]]]].
      * left. exists out', c'. split; [exact F|]. pose proof (tiles_le _ _ _ _ _ T) as TL. split.
        -- intros k Hk. rewrite K by lia. apply write_out. lia.
        -- intros g' iq iv [X|X]; [|apply (P g' iq iv X)]. injection X as <- <- <-.
           assert (SQ : eqTo (lg_nq g) (shift a out') q). { intros k Hk. unfold shift. rewrite K by lia. rewrite write_in by lia. f_equal. lia. }
           destruct (random_ok g _ _ _ q c1 E) as [G L]; [intros k; apply SR | intros k l0 u; apply OL |]. split; [|split].
           ++ intros N. apply (proj2 (random_none g (fun k => lower (a + k)) (fun k => upper (a + k)) (shift c r))) in N. rewrite N in E. discriminate.
           ++ eapply on_ext; [|exact G]. intros k Hk. symmetry. apply SQ, Hk.
           ++ intros k Hk. pose proof (SQ k (euclid_lt g k Hk)) as X. unfold shift in X. rewrite X. exact (L k Hk).
      * right. exists out'. split; [exact F|]. exists g', iq, iv. split; [right; exact I | exact N].
    + right. exists out. split; [apply foldR_throw|]. exists g, a, b. split; [left; reflexivity|]. exact (proj1 (random_none g _ _ _) E).
Qed.
Lemma random_model r out : stream r -> orderedLimits lower upper ->
  match randomConfiguration m lower upper r out with
  | Ok q _ => validConf m q /\ (forall k, euclidean m k -> inLimit lower upper k (q k)) /\ (forall k, m_nq m <= k -> q k = out k)
  | Throw _ => exists k, euclidean m k /\ (lower k = None \/ upper k = None)
  | Undef => False
  end.
Proof.
  intros SR OL. change (randomConfiguration m lower upper r out) with (fold_left (stepR r) (modelPieces m) (Ok out 0)).
  destruct (foldR_spec r SR OL _ _ _ _ _ out 0 (model_tiles m W)) as [[q [c [-> [K P]]]]|[q [-> [g [iq [iv [I [k [E N]]]]]]]]].
  - split; [|split].
    + intros iq iv s L. apply (P _ _ _ (leaf_model m iq iv s W L)).
    + intros k [iq [iv [s [j [L [E ->]]]]]]. exact (proj2 (proj2 (P _ _ _ (leaf_model m iq iv s W L))) j E).
    + intros k Hk. apply K. right. exact Hk.
  - destruct (model_leaf m g iq iv W I) as [s [L ->]]. exists (iq + k). split; [exists iq, iv, s, k; auto | exact N].
Qed.
Lemma random_model_ok r out : stream r -> orderedLimits lower upper ->
  (exists k, euclidean m k /\ (lower k = None \/ upper k = None)) -> exists o, randomConfiguration m lower upper r out = Throw o.
Proof.
  intros SR OL [k [[iq [iv [s [j [L [E ->]]]]]] N]]. change (randomConfiguration m lower upper r out) with (fold_left (stepR r) (modelPieces m) (Ok out 0)).
  destruct (foldR_spec r SR OL _ _ _ _ _ out 0 (model_tiles m W)) as [[q [c [_ [_ P]]]]|[q [-> _]]]; [|exists q; reflexivity].
  exfalso. apply (proj1 (P _ _ _ (leaf_model m iq iv s W L))). exists j. auto.
Qed.
End model.
(* ---------- distances ---------- *)
Local Open Scope R_scope.
Section dist.
Variable eps : R.
Variable m : Model.
Hypothesis W : wellFormed m.
Variables q0 q1 : vec.
Definition D (p : Piece) : R := let '(g, iq, _) := p in lg_squaredDistance eps g (shift iq q0) (shift iq q1).
Definition sumD (l : list Piece) : R := fold_right (fun p s => D p + s) 0 l.
Lemma sumD_app l1 l2 : sumD (l1 ++ l2) = sumD l1 + sumD l2.
Proof. induction l1 as [|p l1 IH]; cbn [app sumD fold_right]; fold (sumD l2); [ring |]. fold (sumD (l1 ++ l2)) (sumD l1). rewrite IH. ring. Qed.
Lemma fold_sumD l s : fold_left (fun s (p : Piece) => let '(g, iq, _) := p in s + lg_squaredDistance eps g (shift iq q0) (shift iq q1)) l s = s + sumD l.
Proof. revert s. induction l as [|[[g iq] iv] l IH]; intros s; cbn [fold_left sumD fold_right]; [ring|]. rewrite IH. cbn [D]. fold (sumD l). ring. Qed.
Lemma dsum_eq : squaredDistanceSum eps m q0 q1 = sumD (modelPieces m).
Proof. unfold squaredDistanceSum. rewrite fold_sumD. ring. Qed.
Lemma joint_fold i l out k : fold_left (fun out (p : Piece) => let '(g, iq, _) := p in
      fun k => if (k =? i)%nat then out k + lg_squaredDistance eps g (shift iq q0) (shift iq q1) else out k) l out k = if (k =? i)%nat then out k + sumD l else out k.
Proof.
  revert out. induction l as [|[[g iq] iv] l IH]; intros out; cbn [fold_left sumD fold_right].
  - destruct (k =? i)%nat; ring.
  - rewrite IH. cbn [D]. fold (sumD l). destruct (k =? i)%nat; [ring | reflexivity].
Qed.
Lemma dist_entry out k : squaredDistance eps m q0 q1 out k = if (k <? m_njoints m - 1)%nat then out k + sumD (jointPieces m (k + 1)) else out k.
Proof.
  unfold squaredDistance. assert (G : forall n s out, fold_left (fun out i => fold_left (fun out (p : Piece) => let '(g, iq, _) := p in
      fun k => if (k =? i)%nat then out k + lg_squaredDistance eps g (shift iq q0) (shift iq q1) else out k) (jointPieces m (i + 1)) out) (seq s n) out k =
      if ((s <=? k) && (k <? s + n))%nat%bool then out k + sumD (jointPieces m (k + 1)) else out k).
  { induction n as [|n IH]; intros s o.
    - cbn [seq fold_left]. destruct (Nat.leb_spec s k), (Nat.ltb_spec k (s + 0)); cbn; reflexivity || lia.
    - cbn [seq fold_left]. rewrite IH, joint_fold. destruct (Nat.eqb_spec k s) as [->|N].
      + rewrite Nat.leb_refl, (proj2 (Nat.leb_gt (S s) s)), (proj2 (Nat.ltb_lt s (s + S n))) by lia. reflexivity.
      + destruct (Nat.leb_spec (S s) k), (Nat.leb_spec s k), (Nat.ltb_spec k (S s + n)), (Nat.ltb_spec k (s + S n)); cbn; reflexivity || lia. }
  rewrite G. cbn [Nat.leb andb Nat.add]. reflexivity.
Qed.
Lemma dist_total : sumTo (m_njoints m - 1) (squaredDistance eps m q0 q1 (fun _ => 0)) = squaredDistanceSum eps m q0 q1.
Proof.
  rewrite dsum_eq. unfold modelPieces. 
  assert (G : forall n, (n <= m_njoints m - 1)%nat -> sumTo n (squaredDistance eps m q0 q1 (fun _ => 0)) = sumD (flat_map (jointPieces m) (seq 1 n))).
  { induction n as [|n IH]; intros H; [reflexivity|]. cbn [sumTo]. rewrite IH by lia. rewrite seq_S, flat_map_app, sumD_app, dist_entry.
    rewrite (proj2 (Nat.ltb_lt n (m_njoints m - 1))) by lia. cbn [flat_map]. rewrite app_nil_r. replace (n + 1)%nat with (1 + n)%nat by lia. ring. }
  apply G. lia.
Qed.
Lemma sumTo_split n k f : sumTo (n + k) f = sumTo n f + sumTo k (shift n f).
Proof. induction k as [|k IH]; [rewrite Nat.add_0_r; cbn; ring|]. rewrite Nat.add_succ_r. cbn [sumTo]. rewrite IH. unfold shift at 3. ring. Qed.
Lemma sum_tiles l : forall a b e f d, tiles l a b e f -> (forall g iq iv, In (g, iq, iv) l -> eqTo (lg_nv g) (shift iv d) (lg_difference eps g (shift iq q0) (shift iq q1))) ->
  sumTo f (fun k => d k * d k) = sumTo b (fun k => d k * d k) + sumD l.
Proof.
  induction l as [|p l IH]; intros a b e f d T H.
  - apply tiles_inil in T. destruct T as [-> ->]. cbn. ring.
  - apply tiles_inv in T. destruct T as [g [-> T]]. rewrite (IH _ _ _ _ d T) by (intros; apply H; right; assumption).
    rewrite sumTo_split. cbn [sumD fold_right]. fold (sumD l). cbn [D]. rewrite dist_sum. rewrite Rplus_assoc. f_equal. f_equal.
    apply sumTo_ext. intros k Hk. pose proof (H g a b (or_introl eq_refl) k Hk) as E. unfold shift in *. rewrite E. reflexivity.
Qed.
Lemma dsum_norm out : squaredDistanceSum eps m q0 q1 = sumTo (m_nv m) (fun k => difference eps m q0 q1 out k * difference eps m q0 q1 out k).
Proof.
  rewrite dsum_eq. rewrite (sum_tiles _ _ _ _ _ (difference eps m q0 q1 out) (model_tiles m W)); [cbn [sumTo]; ring|].
  intros g iq iv I. exact (foldV_in (fun g iq _ => lg_difference eps g (shift iq q0) (shift iq q1)) _ _ _ _ _ out _ _ _ (model_tiles m W) I).
Qed.
Lemma sumD_pos l : 0 < eps <= 1 / 4096 -> (forall g iq iv, In (g, iq, iv) l -> onGroup g (shift iq q0) /\ onGroup g (shift iq q1)) ->
  0 <= sumD l /\ (sumD l = 0 <-> forall g iq iv, In (g, iq, iv) l -> sameConf g (shift iq q0) (shift iq q1)).
Proof.
  intros He. induction l as [|[[g iq] iv] l IH]; intros V; cbn [sumD fold_right].
  - split; [lra|]. split; [intros _ ? ? ? []| reflexivity].
  - fold (sumD l). destruct IH as [P Z]; [intros; apply (V g0 iq0 iv0); right; assumption|]. destruct (V g iq iv (or_introl eq_refl)) as [V0 V1].
    destruct (dist_zero eps g _ _ He V0 V1) as [P' Z']. cbn [D] in *. split; [lra|]. split.
    + intros E. assert (E1 : sumD l = 0) by lra. assert (E2 : lg_squaredDistance eps g (shift iq q0) (shift iq q1) = 0) by lra.
      intros g' i' j' [X|X]; [injection X as <- <- <-; apply Z', E2 | apply (proj1 Z E1 _ _ _ X)].
    + intros H. rewrite (proj2 Z'), (proj2 Z); [ring| |]; [intros g' i' j' X; apply (H g' i' j'); right; exact X | apply (H g iq iv); left; reflexivity].
Qed.
Lemma dsum_zero : 0 < eps <= 1 / 4096 -> validConf m q0 -> validConf m q1 ->
  0 <= squaredDistanceSum eps m q0 q1 /\ (squaredDistanceSum eps m q0 q1 = 0 <-> forall iq iv s, leafOf m iq iv s -> sameConf (lieGroup1 s) (shift iq q0) (shift iq q1)).
Proof.
  intros He V0 V1. rewrite dsum_eq. rewrite <- (leaf_cases m W (fun g iq _ => sameConf g (shift iq q0) (shift iq q1))). apply sumD_pos; [exact He|].
  intros g iq iv I. destruct (model_leaf m g iq iv W I) as [s [L ->]]. split; [apply (V0 _ _ _ L) | apply (V1 _ _ _ L)].
Qed.
End dist.
