(* the loops over the joints *)
Require Import Reals Lra Lia Arith Bool List.
From Verif Require Import Vec3 Spatial Rot Deriv Joints JointFacts Model Spec_Model ExpLog Spec_Exp ExpJac Kinematics LieGroup Spec_Lie
  LieFacts6 LieFacts7 LogMat LieDer Spec_LieDer LieDerFacts LieDerFacts3 LieDerFacts6.
Import ListNotations.
Local Open Scope nat_scope.

Definition foldB (F : LG -> nat -> nat -> jac -> jac) (l : list Piece) (J : jac) : jac :=
  fold_left (fun J p => let '(g, iq, iv) := p in writeBlk iv (lg_nv g) (F g iq iv (blockAt iv iv J)) J) l J.
Definition foldR (F : LG -> nat -> nat -> jac -> jac) (l : list Piece) (J : jac) : jac :=
  fold_left (fun J p => let '(g, iq, iv) := p in writeRows iv (lg_nv g) (F g iq iv (rowsAt iv J)) J) l J.
Lemma writeBlk_out i n X J k l : ~ (i <= k < i + n /\ i <= l < i + n) -> writeBlk i n X J k l = J k l.
Proof. intros H. unfold writeBlk. destruct (Nat.leb_spec i k), (Nat.ltb_spec k (i + n)), (Nat.leb_spec i l), (Nat.ltb_spec l (i + n)); cbn; try reflexivity. lia. Qed.
Lemma writeBlk_in i n X J x y : x < n -> y < n -> writeBlk i n X J (i + x) (i + y) = X x y.
Proof. intros A B. unfold writeBlk. rewrite !(proj2 (Nat.leb_le _ _)), !(proj2 (Nat.ltb_lt _ _)) by lia. cbn. f_equal; lia. Qed.
Lemma writeRows_out i n X J k l : ~ (i <= k < i + n) -> writeRows i n X J k l = J k l.
Proof. intros H. unfold writeRows. destruct (Nat.leb_spec i k), (Nat.ltb_spec k (i + n)); cbn; try reflexivity. lia. Qed.
Lemma writeRows_in i n X J x l : x < n -> writeRows i n X J (i + x) l = X x l.
Proof. intros A. unfold writeRows. rewrite !(proj2 (Nat.leb_le _ _)), !(proj2 (Nat.ltb_lt _ _)) by lia. cbn. f_equal; lia. Qed.
Lemma foldB_out F l : forall J x y, (forall g iq iv, In (g, iq, iv) l -> ~ (iv <= x < iv + lg_nv g /\ iv <= y < iv + lg_nv g)) -> foldB F l J x y = J x y.
Proof.
  induction l as [|[[g iq] iv] l IH]; intros J x y H; [reflexivity|]. cbn [foldB fold_left]. unfold foldB in IH. rewrite IH by (intros g' iq' iv' I; apply (H g' iq' iv'); right; exact I).
  apply writeBlk_out. apply (H g iq iv). left. reflexivity.
Qed.
Lemma foldR_out F l : forall J x y, (forall g iq iv, In (g, iq, iv) l -> ~ (iv <= x < iv + lg_nv g)) -> foldR F l J x y = J x y.
Proof.
  induction l as [|[[g iq] iv] l IH]; intros J x y H; [reflexivity|]. cbn [foldR fold_left]. unfold foldR in IH. rewrite IH by (intros g' iq' iv' I; apply (H g' iq' iv'); right; exact I).
  apply writeRows_out. apply (H g iq iv). left. reflexivity.
Qed.
Lemma foldB_in F (E : forall g iq iv J K, (forall x y, x < lg_nv g -> y < lg_nv g -> J x y = K x y) -> forall x y, x < lg_nv g -> y < lg_nv g -> F g iq iv J x y = F g iq iv K x y) l :
  forall a b e f J g iq iv x y, tiles l a b e f -> In (g, iq, iv) l -> x < lg_nv g -> y < lg_nv g -> foldB F l J (iv + x) (iv + y) = F g iq iv (blockAt iv iv J) x y.
Proof.
  induction l as [|p l IH]; intros a b e f J g iq iv x y T I Hx Hy; [destruct I|]. apply tiles_inv in T. destruct T as (g0 & -> & T). change (foldB F ((g0, a, b) :: l) J) with (foldB F l (writeBlk b (lg_nv g0) (F g0 a b (blockAt b b J)) J)).
  destruct I as [Q|I].
  - injection Q as -> -> ->. rewrite foldB_out; [apply writeBlk_in; assumption|]. intros g' iq' iv' I'. pose proof (tiles_in _ _ _ _ _ _ _ _ T I'). lia.
  - rewrite (IH _ _ _ _ _ g iq iv x y T I Hx Hy). apply E; try assumption. intros x' y' _ _. unfold blockAt. pose proof (tiles_in _ _ _ _ _ _ _ _ T I). apply writeBlk_out. lia.
Qed.
Lemma foldR_in F (E : forall g iq iv J K, (forall x y, x < lg_nv g -> J x y = K x y) -> forall x y, x < lg_nv g -> F g iq iv J x y = F g iq iv K x y) l :
  forall a b e f J g iq iv x y, tiles l a b e f -> In (g, iq, iv) l -> x < lg_nv g -> foldR F l J (iv + x) y = F g iq iv (rowsAt iv J) x y.
Proof.
  induction l as [|p l IH]; intros a b e f J g iq iv x y T I Hx; [destruct I|]. apply tiles_inv in T. destruct T as (g0 & -> & T). change (foldR F ((g0, a, b) :: l) J) with (foldR F l (writeRows b (lg_nv g0) (F g0 a b (rowsAt b J)) J)).
  destruct I as [Q|I].
  - injection Q as -> -> ->. rewrite foldR_out; [apply writeRows_in; assumption|]. intros g' iq' iv' I'. pose proof (tiles_in _ _ _ _ _ _ _ _ T I'). lia.
  - rewrite (IH _ _ _ _ _ g iq iv x y T I Hx). apply E; try assumption. intros x' y' _. unfold rowsAt. pose proof (tiles_in _ _ _ _ _ _ _ _ T I). apply writeRows_out. lia.
Qed.
Local Open Scope R_scope.
Section M.
Variable m : Model.
Hypothesis W : wellFormed m.
Variable eps : R.
(* no leaf owns both the row and the column *)
Lemma off_pieces k l : (forall iq iv s, leafOf m iq iv s -> ~ (iv <= k < iv + nv1 s /\ iv <= l < iv + nv1 s)%nat) ->
  forall g iq iv, In (g, iq, iv) (modelPieces m) -> ~ (iv <= k < iv + lg_nv g /\ iv <= l < iv + lg_nv g)%nat.
Proof. intros H g iq iv I. destruct (model_leaf m g iq iv W I) as (s & L & ->). rewrite (proj2 (group_dims s)). apply (H iq iv s L). Qed.
Lemma dint_ext arg op v g (iq iv : nat) J K : (forall x y, (x < lg_nv g)%nat -> (y < lg_nv g)%nat -> J x y = K x y) -> forall x y, (x < lg_nv g)%nat -> (y < lg_nv g)%nat ->
  lg_dIntegrate eps g arg op (shift iv v) J x y = lg_dIntegrate eps g arg op (shift iv v) K x y.
Proof. intros H x y Hx Hy. rewrite (lg_ops eps g arg op _ J J x y Hx Hy), (lg_ops eps g arg op _ K J x y Hx Hy). unfold putJac. rewrite H by assumption. reflexivity. Qed.
Theorem dIntegrate_leaf v J arg op iq iv s x y : leafOf m iq iv s -> (x < nv1 s)%nat -> (y < nv1 s)%nat ->
  dIntegrate eps m v J arg op (iv + x)%nat (iv + y)%nat = lg_dIntegrate eps (lieGroup1 s) arg op (shift iv v) (blockAt iv iv J) x y.
Proof.
  intros L Hx Hy. destruct (group_dims s) as [_ D]. unfold dIntegrate.
  apply (foldB_in (fun g _ iv J => lg_dIntegrate eps g arg op (shift iv v) J) (fun g iq iv => dint_ext arg op v g iq iv) (modelPieces m) _ _ _ _ J (lieGroup1 s) iq iv x y (model_tiles m W) (leaf_model m iq iv s W L)); rewrite D; assumption.
Qed.
Theorem dIntegrate_off v J arg op k l : (forall iq iv s, leafOf m iq iv s -> ~ (iv <= k < iv + nv1 s /\ iv <= l < iv + nv1 s)%nat) -> dIntegrate eps m v J arg op k l = J k l.
Proof. intros H. apply (foldB_out (fun g _ iv J => lg_dIntegrate eps g arg op (shift iv v) J)). apply off_pieces, H. Qed.
Theorem dDifference_leaf q0 q1 J arg iq iv s x y : leafOf m iq iv s -> (x < nv1 s)%nat -> (y < nv1 s)%nat ->
  dDifference eps m q0 q1 J arg (iv + x)%nat (iv + y)%nat = lg_dDifference eps (lieGroup1 s) arg (shift iq q0) (shift iq q1) x y.
Proof.
  intros L Hx Hy. destruct (group_dims s) as [_ D]. unfold dDifference.
  apply (foldB_in (fun g iq _ _ => lg_dDifference eps g arg (shift iq q0) (shift iq q1)) (fun g iq iv J K H x y Hx Hy => eq_refl) (modelPieces m) _ _ _ _ J (lieGroup1 s) iq iv x y (model_tiles m W) (leaf_model m iq iv s W L)); rewrite D; assumption.
Qed.
Theorem dDifference_off q0 q1 J arg k l : (forall iq iv s, leafOf m iq iv s -> ~ (iv <= k < iv + nv1 s /\ iv <= l < iv + nv1 s)%nat) -> dDifference eps m q0 q1 J arg k l = J k l.
Proof. intros H. apply (foldB_out (fun g iq _ _ => lg_dDifference eps g arg (shift iq q0) (shift iq q1))). apply off_pieces, H. Qed.

(* rows of matrices that vanish out of the blocks *)
Lemma leaves_apart iq iv s iq' iv' s' k : leafOf m iq iv s -> leafOf m iq' iv' s' -> (iv <= k < iv + nv1 s)%nat -> (iv' <= k < iv' + nv1 s')%nat -> iv = iv' /\ nv1 s = nv1 s'.
Proof.
  intros L L' H H'. pose proof (leaf_model m iq iv s W L) as I. pose proof (leaf_model m iq' iv' s' W L') as I'. pose proof (model_tiles m W) as T.
  destruct (group_dims s) as [_ D]. destruct (group_dims s') as [_ D']. rewrite <- D, <- D' in *. clear D D' L L'. revert I I' T H H'. generalize (lieGroup1 s) (lieGroup1 s'). generalize 0%nat at 1. generalize 0%nat. generalize (m_nq m) (m_nv m).
  induction (modelPieces m) as [|p l IH]; intros e f b a g g' I I' T H H'; [destruct I|]. apply tiles_inv in T. destruct T as (g0 & -> & T). destruct I as [Q|I], I' as [Q'|I'].
  - injection Q as <- <- <-. injection Q' as <- <- <-. auto.
  - injection Q as <- <- <-. pose proof (tiles_in _ _ _ _ _ _ _ _ T I'). lia.
  - injection Q' as <- <- <-. pose proof (tiles_in _ _ _ _ _ _ _ _ T I). lia.
  - apply (IH _ _ _ _ g g' I I' T H H').
Qed.
Lemma sumTo_all n f : (forall j, (j < n)%nat -> f j = 0) -> sumTo n f = 0.
Proof. intros H. rewrite (sum_ext n f (fun _ => 0) H). apply sum_zero. Qed.
Lemma row_block J (w : vec) iq iv s x : leafOf m iq iv s -> (x < nv1 s)%nat -> (forall l, (l < m_nv m)%nat -> ~ (iv <= l < iv + nv1 s)%nat -> J (iv + x)%nat l = 0) ->
  jacMul (m_nv m) J w (iv + x)%nat = jacMul (nv1 s) (blockAt iv iv J) (shift iv w) x.
Proof.
  intros L Hx Z. destruct (leaf_in m W iq iv s L) as [_ B]. unfold jacMul. replace (m_nv m) with (iv + (nv1 s + (m_nv m - iv - nv1 s)))%nat by lia. rewrite !sumTo_split.
  rewrite (sumTo_all iv) by (intros j Hj; rewrite Z by lia; ring).
  rewrite (sumTo_all (m_nv m - iv - nv1 s)) by (intros j Hj; unfold shift; rewrite Z by lia; ring). unfold blockAt, shift. ring.
Qed.
Lemma dint_row v arg iq iv s x l : leafOf m iq iv s -> (x < nv1 s)%nat -> ~ (iv <= l < iv + nv1 s)%nat -> dIntegrate eps m v zeroJac arg SETTO (iv + x)%nat l = 0.
Proof.
  intros L Hx Z. apply dIntegrate_off. intros iq' iv' s' L' [A B]. destruct (leaves_apart iq iv s iq' iv' s' (iv + x)%nat L L' ltac:(lia) A) as [<- E]. lia.
Qed.
Lemma ddiff_row q0 q1 arg iq iv s x l : leafOf m iq iv s -> (x < nv1 s)%nat -> ~ (iv <= l < iv + nv1 s)%nat -> dDifference eps m q0 q1 zeroJac arg (iv + x)%nat l = 0.
Proof.
  intros L Hx Z. apply dDifference_off. intros iq' iv' s' L' [A B]. destruct (leaves_apart iq iv s iq' iv' s' (iv + x)%nat L L' ltac:(lia) A) as [<- E]. lia.
Qed.
Lemma jac_ext2 n J K (w w' : vec) k : (forall j, (j < n)%nat -> J k j = K k j) -> eqTo n w w' -> jacMul n J w k = jacMul n K w' k.
Proof. intros H E. apply sum_ext. intros j Hj. rewrite H, E by exact Hj. reflexivity. Qed.
Lemma dint_mul v arg (w : vec) iq iv s x : leafOf m iq iv s -> (x < nv1 s)%nat ->
  jacMul (m_nv m) (dIntegrate eps m v zeroJac arg SETTO) w (iv + x)%nat = jacMul (nv1 s) (lg_dIntegrate eps (lieGroup1 s) arg SETTO (shift iv v) zeroJac) (shift iv w) x.
Proof.
  intros L Hx. rewrite (row_block _ w iq iv s x L Hx) by (intros l _ Z; apply (dint_row v arg iq iv s x l L Hx Z)).
  apply jac_row_ext. intros j Hj. unfold blockAt at 1. rewrite (dIntegrate_leaf v zeroJac arg SETTO iq iv s x j L Hx Hj). reflexivity.
Qed.
Lemma ddiff_mul q0 q1 arg (w : vec) iq iv s x : leafOf m iq iv s -> (x < nv1 s)%nat ->
  jacMul (m_nv m) (dDifference eps m q0 q1 zeroJac arg) w (iv + x)%nat = jacMul (nv1 s) (lg_dDifference eps (lieGroup1 s) arg (shift iq q0) (shift iq q1)) (shift iv w) x.
Proof.
  intros L Hx. rewrite (row_block _ w iq iv s x L Hx) by (intros l _ Z; apply (ddiff_row q0 q1 arg iq iv s x l L Hx Z)).
  apply jac_row_ext. intros j Hj. unfold blockAt. apply (dDifference_leaf q0 q1 zeroJac arg iq iv s x j L Hx Hj).
Qed.
(* transport *)
Theorem transport_product v Jin Jout arg k l : (k < m_nv m)%nat -> dIntegrateTransport eps m v Jin Jout arg k l = jacMul (m_nv m) (dIntegrate eps m v zeroJac arg SETTO) (fun j => Jin j l) k.
Proof.
  intros Hk. destruct (leaves_cover_v m W k Hk) as (iq & iv & s & L & B). replace k with (iv + (k - iv))%nat by lia. set (x := (k - iv)%nat). assert (Hx : (x < nv1 s)%nat) by lia. rewrite (dint_mul v arg _ iq iv s x L Hx).
  destruct (group_dims s) as [_ D]. unfold dIntegrateTransport.
  pose proof (foldR_in (fun g _ iv _ => lg_transport eps g arg (shift iv v) (rowsAt iv Jin)) (fun g iq iv J K H x y Hx => eq_refl) (modelPieces m) _ _ _ _ Jout (lieGroup1 s) iq iv x l (model_tiles m W) (leaf_model m iq iv s W L) ltac:(rewrite D; exact Hx)) as E.
  unfold foldR in E. rewrite E. rewrite (lg_transport_sum eps (lieGroup1 s) arg (shift iv v) (rowsAt iv Jin) zeroJac x l) by (rewrite D; exact Hx). rewrite D. reflexivity.
Qed.
Theorem transport_rest v Jin Jout arg k l : (m_nv m <= k)%nat -> dIntegrateTransport eps m v Jin Jout arg k l = Jout k l.
Proof.
  intros Hk. apply (foldR_out (fun g _ iv _ => lg_transport eps g arg (shift iv v) (rowsAt iv Jin))). intros g iq iv I. pose proof (tiles_in _ _ _ _ _ _ _ _ (model_tiles m W) I). lia.
Qed.
Theorem inPlace_product v J arg k l : (k < m_nv m)%nat -> dIntegrateTransportInPlace eps m v J arg k l = jacMul (m_nv m) (dIntegrate eps m v zeroJac arg SETTO) (fun j => J j l) k.
Proof.
  intros Hk. rewrite <- (transport_product v J J arg k l Hk). destruct (leaves_cover_v m W k Hk) as (iq & iv & s & L & B). replace k with (iv + (k - iv))%nat by lia. set (x := (k - iv)%nat). assert (Hx : (x < nv1 s)%nat) by lia.
  destruct (group_dims s) as [_ D]. unfold dIntegrateTransport, dIntegrateTransportInPlace.
  assert (Ext : forall g (iq iv : nat) J K, (forall x y, (x < lg_nv g)%nat -> J x y = K x y) -> forall x y, (x < lg_nv g)%nat -> lg_transportInPlace eps g arg (shift iv v) J x y = lg_transportInPlace eps g arg (shift iv v) K x y).
  { intros g iq' iv' J1 K1 H x' y' Hx'. rewrite !lg_inPlace by exact Hx'. rewrite !(lg_transport_sum eps g arg (shift iv' v) _ zeroJac x' y' Hx'). apply jac_ext2; [reflexivity|]. intros j Hj. apply H, Hj. }
  pose proof (foldR_in (fun g _ iv _ => lg_transport eps g arg (shift iv v) (rowsAt iv J)) (fun g iq iv J K H x y Hx => eq_refl) (modelPieces m) _ _ _ _ J (lieGroup1 s) iq iv x l (model_tiles m W) (leaf_model m iq iv s W L) ltac:(rewrite D; exact Hx)) as E.
  pose proof (foldR_in (fun g _ iv J => lg_transportInPlace eps g arg (shift iv v) J) Ext (modelPieces m) _ _ _ _ J (lieGroup1 s) iq iv x l (model_tiles m W) (leaf_model m iq iv s W L) ltac:(rewrite D; exact Hx)) as E'.
  unfold foldR in E, E'. rewrite E, E'. apply lg_inPlace. rewrite D. exact Hx.
Qed.
Theorem inPlace_rest v J arg k l : (m_nv m <= k)%nat -> dIntegrateTransportInPlace eps m v J arg k l = J k l.
Proof.
  intros Hk. apply (foldR_out (fun g _ iv J => lg_transportInPlace eps g arg (shift iv v) J)). intros g iq iv I. pose proof (tiles_in _ _ _ _ _ _ _ _ (model_tiles m W) I). lia.
Qed.
(* rates *)
Theorem model_dIntegrate_rate (q v p : R -> vec) (w dv : vec) t iq iv s : 0 < eps <= 1 / 4 -> leafOf m iq iv s ->
  turning eps (lieGroup1 s) (shift iv (v t)) -> movesAt (lieGroup1 s) (fun u => shift iq (q u)) (shift iv w) t -> derivTo (m_nv m) v dv t -> (forall u, leadsTo (lieGroup1 s) (shift iq (q u)) (shift iv (v u)) (shift iq (p u))) ->
  exists w', movesAt (lieGroup1 s) (fun u => shift iq (p u)) w' t /\
    sameRate eps (lieGroup1 s) (shift iv (v t)) (shift iv w) w'
      (shift iv (fun k => jacMul (m_nv m) (dIntegrate eps m (v t) zeroJac ARG0 SETTO) w k + jacMul (m_nv m) (dIntegrate eps m (v t) zeroJac ARG1 SETTO) dv k)).
Proof.
  intros He L T M D Q. destruct (group_dims s) as [_ G]. destruct (leaf_in m W iq iv s L) as [_ B].
  destruct (dIntegrate_rate eps (lieGroup1 s) (fun u => shift iq (q u)) (shift iv w) (fun u => shift iv (v u)) (shift iv dv) (fun u => shift iq (p u)) t zeroJac zeroJac He T M) as (w' & A & C); [intros k Hk; unfold shift; apply D; rewrite G in Hk; lia|exact Q|].
  exists w'. split; [exact A|]. eapply sameRate_ext; [| |exact C]; [intros k _; reflexivity|]. intros k Hk. rewrite G in Hk. unfold shift at 5. rewrite !(dint_mul _ _ _ iq iv s k L Hk), G. reflexivity.
Qed.
Theorem model_dDifference_rate (q0 q1 d : R -> vec) (w0 w1 : vec) t : 0 < eps <= 1 / 4096 -> (forall u, validConf m (q0 u)) -> (forall u, validConf m (q1 u)) ->
  (forall iq iv s, leafOf m iq iv s -> movesAt (lieGroup1 s) (fun u => shift iq (q0 u)) (shift iv w0) t /\ movesAt (lieGroup1 s) (fun u => shift iq (q1 u)) (shift iv w1) t /\
     (forall u, leadsTo (lieGroup1 s) (shift iq (q0 u)) (shift iv (d u)) (shift iq (q1 u))) /\ (forall u, shortest (lieGroup1 s) (shift iv (d u))) /\ apart eps (lieGroup1 s) (shift iv (d t))) ->
  derivTo (m_nv m) d (fun k => jacMul (m_nv m) (dDifference eps m (q0 t) (q1 t) zeroJac ARG0) w0 k + jacMul (m_nv m) (dDifference eps m (q0 t) (q1 t) zeroJac ARG1) w1 k) t.
Proof.
  intros He V0 V1 H k Hk. destruct (leaves_cover_v m W k Hk) as (iq & iv & s & L & B). destruct (H iq iv s L) as (M0 & M1 & Q & S & P). destruct (group_dims s) as [_ G].
  pose proof (dDifference_rate eps (lieGroup1 s) (fun u => shift iq (q0 u)) (fun u => shift iq (q1 u)) (shift iv w0) (shift iv w1) (fun u => shift iv (d u)) t He (fun u => V0 u iq iv s L) (fun u => V1 u iq iv s L) M0 M1 Q S P (k - iv)%nat ltac:(rewrite G; lia)) as D.
  unfold shift at 1 in D. replace (iv + (k - iv))%nat with k in D by lia. eapply deriv_eq; [exact D|]. cbv beta. rewrite G.
  replace k with (iv + (k - iv))%nat at 3 4 by lia. rewrite !(ddiff_mul _ _ _ _ iq iv s (k - iv)%nat L) by lia. reflexivity.
Qed.
End M.
