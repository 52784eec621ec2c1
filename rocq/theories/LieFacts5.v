(* neutral, normalize, isNormalized and random configurations of the groups *)
Require Import Reals Lra Arith Bool List Lia FunctionalExtensionality.
From Verif Require Import Vec3 Spatial Joints JointFacts Model Kinematics Deriv Rot RotFacts ExpLog Spec_Exp LieGroup Spec_Lie LieFacts LieFacts2 LieFacts3 LieFacts4.
Local Open Scope R_scope.

Lemma neutral_on g : onGroup g (lg_neutral g).
Proof.
  induction g as [n| | | | |a IHa b IHb]; cbn [onGroup lg_neutral]; try exact I; try (cbn; ring).
  rewrite shift_join. split; [|exact IHb]. eapply on_ext; [|exact IHa]. intros k Hk. rewrite join_lo by exact Hk. reflexivity.
Qed.
Lemma norm2_pos n q : 0 <= norm2Of n q. Proof. apply sumTo_sq_pos. Qed.
Lemma norm2_nz n q : (exists k, (k < n)%nat /\ q k <> 0) -> 0 < norm2Of n q.
Proof.
  intros [k [Hk N]]. pose proof (norm2_pos n q) as P. destruct P as [P|P]; [exact P|]. exfalso. apply N. symmetry in P. exact (proj1 (sumTo_sq_0 n q) P k Hk).
Qed.
Lemma sumTo_scale n c f : sumTo n (fun k => c * f k) = c * sumTo n f.
Proof. induction n as [|n IH]; cbn; [ring|]. rewrite IH. ring. Qed.
Lemma vnormalize_unit n q : 0 < norm2Of n q -> norm2Of n (vnormalize n q) = 1.
Proof.
  intros H. unfold norm2Of at 1, vnormalize. destruct (Rlt_dec 0 (norm2Of n q)); [|contradiction].
  assert (S : 0 < sqrt (norm2Of n q)) by (apply sqrt_lt_R0; exact H). assert (Q : sqrt (norm2Of n q) * sqrt (norm2Of n q) = norm2Of n q) by (apply sqrt_sqrt; lra).
  set (s := sqrt (norm2Of n q)) in *.
  replace (fun k => q k / s * (q k / s)) with (fun k => / norm2Of n q * (q k * q k)) by (extensionality k; rewrite <- Q; field; lra).
  rewrite sumTo_scale. fold (norm2Of n q). field. lra.
Qed.
Lemma vnormalize_id n q : norm2Of n q = 1 -> forall k, vnormalize n q k = q k.
Proof. intros H k. unfold vnormalize. rewrite H. destruct (Rlt_dec 0 1); [rewrite sqrt_1; field | reflexivity]. Qed.
Lemma norm2_ext n p q : eqTo n p q -> norm2Of n p = norm2Of n q.
Proof. intros H. apply sumTo_ext. intros k Hk. rewrite H by exact Hk. reflexivity. Qed.
(* onGroup by norms *)
Lemma on_norms g : forall q, onGroup g q <-> match g with LVec _ => True | LSO2 => norm2Of 2 q = 1 | LSO3 => norm2Of 4 q = 1 | LSE2 => norm2Of 2 (shift 2 q) = 1 | LSE3 => norm2Of 4 (shift 3 q) = 1
  | LProd a b => onGroup a q /\ onGroup b (shift (lg_nq a) q) end.
Proof. intros q. destruct g; cbn [onGroup]; unfold norm2Of, shift; cbn; try reflexivity; split; intros H; lra. Qed.
Lemma normalize_on g : forall q, nonzeroParts g q -> onGroup g (lg_normalize g q).
Proof.
  induction g as [n| | | | |a IHa b IHb]; intros q H.
  - exact I.
  - apply on_norms. apply vnormalize_unit, norm2_nz. exact H.
  - apply on_norms. apply vnormalize_unit, norm2_nz. exact H.
  - apply on_norms. cbn [lg_normalize]. rewrite shift_join. apply vnormalize_unit, norm2_nz. destruct H as [k [Hk N]]. exists (k - 2)%nat. split; [lia|]. unfold shift. replace (2 + (k - 2))%nat with k by lia. exact N.
  - apply on_norms. cbn [lg_normalize]. rewrite shift_join. apply vnormalize_unit, norm2_nz. destruct H as [k [Hk N]]. exists (k - 3)%nat. split; [lia|]. unfold shift. replace (3 + (k - 3))%nat with k by lia. exact N.
  - cbn [onGroup lg_normalize]. rewrite shift_join. destruct H as [A B]. split; [|apply IHb; exact B].
    eapply on_ext; [|apply IHa; exact A]. intros k Hk. rewrite join_lo by exact Hk. reflexivity.
Qed.
Lemma normalize_id g : forall q, onGroup g q -> eqTo (lg_nq g) (lg_normalize g q) q.
Proof.
  induction g as [n| | | | |a IHa b IHb]; intros q H; apply on_norms in H; cbn [lg_normalize lg_nq].
  - intros k _. reflexivity.
  - intros k _. apply vnormalize_id. exact H.
  - intros k _. apply vnormalize_id. exact H.
  - apply (eqTo_join 2 2); [intros k _; reflexivity|]. intros k _. apply vnormalize_id. exact H.
  - apply (eqTo_join 3 4); [intros k _; reflexivity|]. intros k _. apply vnormalize_id. exact H.
  - destruct H as [A B]. apply eqTo_join; auto.
Qed.
(* the Euclidean coordinates are left alone *)
Lemma normalize_euclid g : forall q k, euclid g k -> lg_normalize g q k = q k.
Proof.
  induction g as [n| | | | |a IHa b IHb]; intros q k H; cbn [euclid lg_normalize] in *; try reflexivity; try contradiction; try (rewrite join_lo by exact H; reflexivity).
  destruct H as [[L H]|[L H]]; [rewrite join_lo by exact L; apply IHa; exact H|]. rewrite join_lt by exact L. rewrite IHb by exact H. unfold shift. f_equal. lia.
Qed.
Lemma isN_iff g : forall q, onGroup g q <-> (forall prec, 0 < prec -> lg_isNormalized g q prec = true).
Proof.
  assert (U : forall n q, norm2Of n q = 1 <-> (forall prec, 0 < prec -> (if Rlt_dec (Rabs (sqrt (norm2Of n q) - 1)) prec then true else false) = true)).
  { intros n q. split.
    - intros -> prec H. rewrite sqrt_1, Rminus_diag_eq, Rabs_R0 by reflexivity. destruct (Rlt_dec 0 prec); [reflexivity | contradiction].
    - intros H. assert (S : sqrt (norm2Of n q) = 1).
      { destruct (Req_dec (sqrt (norm2Of n q)) 1) as [E|N]; [exact E|]. exfalso.
        specialize (H (Rabs (sqrt (norm2Of n q) - 1)) ltac:(apply Rabs_pos_lt; lra)). destruct (Rlt_dec (Rabs (sqrt (norm2Of n q) - 1)) (Rabs (sqrt (norm2Of n q) - 1))) as [L|L]; [lra | discriminate]. }
      rewrite <- (sqrt_sqrt (norm2Of n q)) by apply norm2_pos. rewrite S. ring. }
  induction g as [n| | | | |a IHa b IHb]; intros q; rewrite on_norms; cbn [lg_isNormalized]; try (apply U).
  - split; reflexivity || auto.
  - rewrite IHa, IHb. split.
    + intros [A B] prec H. rewrite A, B by exact H. reflexivity.
    + intros H. split; intros prec K; specialize (H prec K); apply andb_prop in H; apply H.
Qed.
Lemma isN_bound g : forall q prec, lg_isNormalized g q prec = true -> match g with LSO2 => Rabs (sqrt (norm2Of 2 q) - 1) < prec | LSO3 => Rabs (sqrt (norm2Of 4 q) - 1) < prec
   | LSE2 => Rabs (sqrt (norm2Of 2 (shift 2 q)) - 1) < prec | LSE3 => Rabs (sqrt (norm2Of 4 (shift 3 q)) - 1) < prec | _ => True end.
Proof.
  intros q prec H. destruct g; try exact I; cbn [lg_isNormalized] in H;
  match type of H with (if ?c then _ else _) = _ => destruct c as [L|L]; [exact L | discriminate] end.
Qed.

(* ---------- random ---------- *)
Definition boxOf (lower upper : nat -> option R) (r : vec) := fix box n : option (vec * nat) :=
    match n with
    | O => Some (fun _ => 0, O)
    | S k => match box k, lower k, upper k with
             | Some (q, c), Some l, Some u => Some (fun i => if i =? k then l + (u - l) * r k else q i, n)
             | _, _, _ => None
             end
    end.
Lemma box_some lo up r n q c : boxOf lo up r n = Some (q, c) -> stream r -> orderedLimits lo up -> c = n /\ forall k, (k < n)%nat -> inLimit lo up k (q k).
Proof.
  revert q c. induction n as [|n IH]; intros q c E SR OL; cbn in E.
  - injection E as <- <-. split; [reflexivity|]. intros k Hk. lia.
  - destruct (boxOf lo up r n) as [[p d]|]; [|discriminate]. destruct (lo n) as [l|] eqn:El; [|discriminate]. destruct (up n) as [u|] eqn:Eu; [|discriminate].
    injection E as <- <-. split; [reflexivity|]. intros k Hk. destruct (Nat.eqb_spec k n) as [-> | N].
    + exists l, u. split; [exact El|]. split; [exact Eu|]. pose proof (OL n l u El Eu). pose proof (SR n). nra.
    + apply (IH p d eq_refl SR OL). lia.
Qed.
Lemma box_none lo up r n : boxOf lo up r n = None <-> exists k, (k < n)%nat /\ (lo k = None \/ up k = None).
Proof.
  induction n as [|n IH]; cbn.
  - split; [discriminate | intros [k [Hk _]]; lia].
  - destruct (boxOf lo up r n) as [[p d]|] eqn:B.
    + destruct (lo n) as [l|] eqn:El; [destruct (up n) as [u|] eqn:Eu|].
      * split; [discriminate|]. intros [k [Hk H]]. exfalso. destruct (Nat.eq_dec k n) as [-> | N].
        -- rewrite El, Eu in H. destruct H; discriminate.
        -- assert (X : (None : option (vec * nat)) = Some (p, d)); [|discriminate]. symmetry. apply IH. exists k. split; [lia | exact H].
      * split; [intros _; exists n; split; [lia | right; exact Eu] | reflexivity].
      * split; [intros _; exists n; split; [lia | left; exact El] | reflexivity].
    + split; [intros _ | reflexivity]. destruct (proj1 IH eq_refl) as [k [Hk H]]. exists k. split; [lia | exact H].
Qed.
Lemma circle_on a : cos a * cos a + sin a * sin a = 1. Proof. pose proof (sin2_cos2 a) as H. unfold Rsqr in H. lra. Qed.
Definition circleOf (r : R) : vec := v2Out (cos (- PI + 2 * PI * r)) (sin (- PI + 2 * PI * r)).
Lemma lg_random_eq g lo up r : lg_random g lo up r =
  match g with
  | LVec n => boxOf lo up r n
  | LSO2 => Some (circleOf (r 0%nat), 1%nat)
  | LSO3 => Some (quatOut (uniformRandomQ (r 0%nat) (r 1%nat) (r 2%nat)), 3%nat)
  | LSE2 => match boxOf lo up r 2 with Some (q, c) => Some (join 2 q (circleOf (r c)), c + 1)%nat | None => None end
  | LSE3 => match boxOf lo up r 3 with Some (q, c) => Some (join 3 q (quatOut (uniformRandomQ (r c) (r (c + 1)) (r (c + 2))))%nat, c + 3)%nat | None => None end
  | LProd a b =>
      match lg_random a lo up r with
      | Some (qa, ca) =>
          match lg_random b (fun k => lo (lg_nq a + k)%nat) (fun k => up (lg_nq a + k)%nat) (shift ca r) with
          | Some (qb, cb) => Some (join (lg_nq a) qa qb, ca + cb)%nat
          | None => None
          end
      | None => None
      end
  end.
Proof. destruct g; reflexivity. Qed.
Lemma random_ok g : forall lo up r q c, lg_random g lo up r = Some (q, c) -> stream r -> orderedLimits lo up ->
  onGroup g q /\ forall k, euclid g k -> inLimit lo up k (q k).
Proof.
  induction g as [n| | | | |a IHa b IHb]; intros lo up r q c E SR OL; rewrite lg_random_eq in E.
  - split; [exact I|]. apply (box_some _ _ _ _ _ _ E SR OL).
  - injection E as <- <-. split; [apply circle_on | contradiction].
  - injection E as <- <-. split; [|contradiction]. apply on_so3. rewrite quatAt_Out. apply random_unit. apply SR.
  - destruct (boxOf lo up r 2) as [[p d]|] eqn:B; [|discriminate]. injection E as <- <-. split; [apply circle_on|]. intros k Hk. rewrite join_lo by exact Hk. apply (box_some _ _ _ _ _ _ B SR OL). exact Hk.
  - destruct (boxOf lo up r 3) as [[p d]|] eqn:B; [|discriminate]. injection E as <- <-. split.
    + apply on_se3. rewrite quatAt_joinhi, quatAt_Out. apply random_unit. apply SR.
    + intros k Hk. rewrite join_lo by exact Hk. apply (box_some _ _ _ _ _ _ B SR OL). exact Hk.
  - destruct (lg_random a lo up r) as [[qa ca]|] eqn:A; [|discriminate]. destruct (lg_random b _ _ _) as [[qb cb]|] eqn:B; [|discriminate]. injection E as <- <-.
    destruct (IHa _ _ _ _ _ A SR OL) as [Ga La]. destruct (IHb _ _ _ _ _ B) as [Gb Lb].
    { intros k. apply SR. }
    { intros k l u. apply OL. }
    cbn [onGroup euclid]. rewrite shift_join. split; [split; [|exact Gb]|].
    + eapply on_ext; [|exact Ga]. intros k Hk. rewrite join_lo by exact Hk. reflexivity.
    + intros k [[L H]|[L H]]; [rewrite join_lo by exact L; apply La; exact H|]. rewrite join_lt by exact L. 
      destruct (Lb _ H) as [l [u [X [Y Z]]]]. exists l, u. replace (lg_nq a + (k - lg_nq a))%nat with k in X, Y by lia. auto.
Qed.
Lemma euclid_lt g : forall k, euclid g k -> (k < lg_nq g)%nat.
Proof. induction g as [n| | | | |a IHa b IHb]; intros k H; cbn [euclid lg_nq] in *; try contradiction; try lia. destruct H as [[L H]|[L H]]; [lia|]. apply IHb in H. lia. Qed.
Lemma random_none g : forall lo up r, lg_random g lo up r = None <-> exists k, euclid g k /\ (lo k = None \/ up k = None).
Proof.
  induction g as [n| | | | |a IHa b IHb]; intros lo up r; rewrite lg_random_eq.
  - apply box_none.
  - split; [discriminate | intros [k [[] _]]].
  - split; [discriminate | intros [k [[] _]]].
  - destruct (boxOf lo up r 2) as [[p d]|] eqn:B.
    + split; [discriminate|]. intros H. apply (proj2 (box_none lo up r 2)) in H. rewrite H in B. discriminate.
    + split; [intros _; apply (box_none lo up r 2); exact B | reflexivity].
  - destruct (boxOf lo up r 3) as [[p d]|] eqn:B.
    + split; [discriminate|]. intros H. apply (proj2 (box_none lo up r 3)) in H. rewrite H in B. discriminate.
    + split; [intros _; apply (box_none lo up r 3); exact B | reflexivity].
  - pose proof (euclid_lt a) as EL. destruct (lg_random a lo up r) as [[qa ca]|] eqn:A.
    + assert (NA : ~ exists k, euclid a k /\ (lo k = None \/ up k = None)) by (intros C; apply (proj2 (IHa lo up r)) in C; rewrite C in A; discriminate).
      destruct (lg_random b _ _ _) as [[qb cb]|] eqn:B.
      * split; [discriminate|]. intros [k [[[L H]|[L H]] N]].
        -- exfalso. apply NA. exists k. auto.
        -- assert (X : exists j, euclid b j /\ (lo (lg_nq a + j)%nat = None \/ up (lg_nq a + j)%nat = None)). { exists (k - lg_nq a)%nat. replace (lg_nq a + (k - lg_nq a))%nat with k by lia. auto. }
           apply (proj2 (IHb _ _ (shift ca r))) in X. rewrite X in B. discriminate.
      * split; [intros _ | reflexivity]. destruct (proj1 (IHb _ _ _) B) as [j [H N]]. exists (lg_nq a + j)%nat. split; [|exact N]. right. split; [lia|]. replace (lg_nq a + j - lg_nq a)%nat with j by lia. exact H.
    + split; [intros _ | reflexivity]. destruct (proj1 (IHa _ _ _) A) as [k [H N]]. exists k. split; [|exact N]. left. split; [apply EL; exact H | exact H].
Qed.
