(** Property theorems C17-C21 (Lie groups of the joints), C51 (random configurations) and C60 (functions on the configurations
    of a model). Statements only. onGroup, planarFlow, reaches, sameConf, leafOf and the precisions are in Spec_Lie, the exact
    exponentials Qexp and Texp in Spec_Exp. *)
From Coq Require Import Reals Lra Arith List.
From Verif Require Import Vec3 Spatial Joints Spec_Joints Model Spec_Model ModelFacts ModelFacts3 Kinematics Spec_Kin KinFacts3 Rot Spec_Rot ExpLog Spec_Exp LieGroup Spec_Lie
  LieFacts LieFacts2 LieFacts3 LogFacts2 LogFacts4 LieFacts4 LieFacts5 LieFacts6 LieFacts7 LieFacts8 LieFacts9 LieFacts10.
Local Open Scope R_scope.

(** ** C17: vector spaces *)
Theorem C17_difference_integrate (eps : R) (n : nat) (q v : vec) : eqTo n (lg_difference eps (LVec n) q (lg_integrate eps (LVec n) q v)) v.
Proof. exact (vec_diff_int eps n q v). Qed.
Print Assumptions C17_difference_integrate.
Theorem C17_integrate_difference (eps : R) (n : nat) (q p : vec) : eqTo n (lg_integrate eps (LVec n) q (lg_difference eps (LVec n) q p)) p.
Proof. exact (vec_int_diff eps n q p). Qed.
Print Assumptions C17_integrate_difference.
Theorem C17_interpolate (eps : R) (n : nat) (q p : vec) : eqTo n (lg_interpolate eps (LVec n) q p 0) q /\ eqTo n (lg_interpolate eps (LVec n) q p 1) p /\
  (forall u k, (k < n)%nat -> lg_interpolate eps (LVec n) q p u k = (1 - u) * q k + u * p k).
Proof. exact (vec_inter eps n q p). Qed.
Print Assumptions C17_interpolate.
Theorem C17_distance (eps : R) (n : nat) (q p : vec) : 0 <= lg_squaredDistance eps (LVec n) q p /\ (lg_squaredDistance eps (LVec n) q p = 0 <-> eqTo n q p) /\
  lg_squaredDistance eps (LVec n) q p = sumTo n (fun k => (p k - q k) * (p k - q k)).
Proof. exact (vec_dist eps n q p). Qed.
Print Assumptions C17_distance.

(** ** C18: the circle *)
(** integrate turns the configuration by the angle v, exactly *)
Theorem C18_integrate (eps : R) (q v : vec) : onGroup LSO2 q -> let r := lg_integrate eps LSO2 q v in
  r 0%nat = q 0%nat * cos (v 0%nat) - q 1%nat * sin (v 0%nat) /\ r 1%nat = q 0%nat * sin (v 0%nat) + q 1%nat * cos (v 0%nat) /\ onGroup LSO2 r.
Proof. exact (so2_turn eps q v). Qed.
Example C18_ex : onGroup LSO2 (v2Out (3 / 5) (4 / 5)) /\ onGroup LSO2 (v2Out (4 / 5) (- (3 / 5))) /\ - PI < v2Out 1 0 0%nat <= PI.
Proof. exact so2_ex. Qed.
Print Assumptions C18_integrate.
Theorem C18_difference_integrate (eps : R) (q v : vec) : onGroup LSO2 q -> - PI < v 0%nat <= PI -> lg_difference eps LSO2 q (lg_integrate eps LSO2 q v) 0%nat = v 0%nat.
Proof. exact (so2_diff_int eps q v). Qed.
(* hypotheses met: C18_ex *)
Print Assumptions C18_difference_integrate.
(** the difference is an angle of (-pi, pi] and integrating it reaches the second configuration *)
Theorem C18_integrate_difference (eps : R) (q p : vec) : onGroup LSO2 q -> onGroup LSO2 p ->
  - PI < lg_difference eps LSO2 q p 0%nat <= PI /\ eqTo 2 (lg_integrate eps LSO2 q (lg_difference eps LSO2 q p)) p.
Proof. exact (so2_diff_range eps q p). Qed.
(* hypotheses met: C18_ex *)
Print Assumptions C18_integrate_difference.
Theorem C18_zero (eps : R) (q v : vec) : onGroup LSO2 q -> v 0%nat = 0 -> eqTo 2 (lg_integrate eps LSO2 q v) q.
Proof. exact (so2_zero eps q v). Qed.
(* hypotheses met: C18_ex *)
Print Assumptions C18_zero.
Theorem C18_additive (eps : R) (q v w z : vec) : onGroup LSO2 q -> z 0%nat = v 0%nat + w 0%nat ->
  eqTo 2 (lg_integrate eps LSO2 (lg_integrate eps LSO2 q v) w) (lg_integrate eps LSO2 q z).
Proof. exact (so2_add eps q v w z). Qed.
(* hypotheses met: C18_ex *)
Print Assumptions C18_additive.

(** ** C19: interpolation. At 0 the first configuration, exactly, for every group and product *)
Theorem C19_start (eps : R) (g : LG) (q0 q1 : vec) : 0 < eps <= 1 / 4 -> onGroup g q0 -> onGroup g q1 -> eqTo (lg_nq g) (lg_interpolate eps g q0 q1 0) q0.
Proof. exact (inter_0 eps g q0 q1). Qed.
Example C19_ex : 0 < 1 / 4096 <= 1 / 4096 /\ onGroup LSE3 exPose0 /\ onGroup LSE3 exPose1 /\ ~ eqTo 7 exPose0 exPose1 /\ ~ opposite (v2Out 1 0) (v2Out 0 1).
Proof. exact inter_ex. Qed.
Print Assumptions C19_start.
(** at 1 the second one, to the precision reachErr; the circle (used alone) needs configurations that are not opposite *)
Theorem C19_end_partial (eps : R) (g : LG) (q0 q1 : vec) : 0 < eps <= 1 / 4096 -> onGroup g q0 -> onGroup g q1 -> (g = LSO2 -> ~ opposite q0 q1) ->
  reaches (reachErr eps) g q0 q1 (lg_interpolate eps g q0 q1 1).
Proof. exact (inter_1 eps g q0 q1). Qed.
(* hypotheses met: C19_ex *)
Print Assumptions C19_end_partial.
(** between nearly opposite configurations of the circle, interpolate stays at the first one for every parameter *)
Theorem C19_so2_refuted : exists q0 q1, onGroup LSO2 q0 /\ onGroup LSO2 q1 /\ opposite q0 q1 /\ q0 0%nat <> q1 0%nat /\
  forall eps u, lg_interpolate eps LSO2 q0 q1 u 0%nat = q0 0%nat.
Proof. exact so2_inter_refuted. Qed.
Print Assumptions C19_so2_refuted.
(** the difference, integrated, reaches the second configuration *)
Theorem C19_integrate_difference (eps : R) (g : LG) (q0 q1 : vec) : 0 < eps <= 1 / 4096 -> onGroup g q0 -> onGroup g q1 ->
  reaches (reachErr eps) g q0 q1 (lg_integrate eps g q0 (lg_difference eps g q0 q1)).
Proof. exact (fun H => int_diff eps g H q0 q1). Qed.
(* hypotheses met: C19_ex *)
Print Assumptions C19_integrate_difference.
(** squaredDistance is the squared norm of the difference and vanishes exactly on equal configurations (quaternions up to sign) *)
Theorem C19_distance (eps : R) (g : LG) (q0 q1 : vec) : 0 < eps <= 1 / 4096 -> onGroup g q0 -> onGroup g q1 ->
  lg_squaredDistance eps g q0 q1 = sumTo (lg_nv g) (fun k => lg_difference eps g q0 q1 k * lg_difference eps g q0 q1 k) /\
  0 <= lg_squaredDistance eps g q0 q1 /\ (lg_squaredDistance eps g q0 q1 = 0 <-> sameConf g q0 q1).
Proof. exact (fun H G0 G1 => conj (dist_sum eps g q0 q1) (dist_zero eps g q0 q1 H G0 G1)). Qed.
(* hypotheses met: C19_ex *)
Print Assumptions C19_distance.

(** ** C20: the plane *)
(** planarFlow is the rigid-body flow: it starts at q and its pose moves with the body velocity v at all times *)
Theorem C20_flow (q v : vec) (t : R) : eqTo 4 (planarFlow q (fun k => 0 * v k)) q /\
  (let p s := planarFlow q (fun k => s * v k) in
   derivable_pt_lim (fun s => p s 0%nat) t (p t 2%nat * v 0%nat - p t 3%nat * v 1%nat) /\ derivable_pt_lim (fun s => p s 1%nat) t (p t 3%nat * v 0%nat + p t 2%nat * v 1%nat) /\
   derivable_pt_lim (fun s => p s 2%nat) t (- v 2%nat * p t 3%nat) /\ derivable_pt_lim (fun s => p s 3%nat) t (v 2%nat * p t 2%nat)).
Proof. exact (planar_flow q v t). Qed.
Print Assumptions C20_flow.
(** integrate is this flow: exactly, except for the position when 0 < |v2| <= 1e-14, where it is within 1e-14 |v| *)
Theorem C20_integrate (eps : R) (q v : vec) : onGroup LSE2 q -> let r := lg_integrate eps LSE2 q v in
  onGroup LSE2 r /\ (forall k, (2 <= k < 4)%nat -> r k = planarFlow q v k) /\ (v 2%nat = 0 \/ e14 < Rabs (v 2%nat) -> eqTo 4 r (planarFlow q v)) /\
  (forall k, (k < 2)%nat -> Rabs (r k - planarFlow q v k) <= e14 * (Rabs (v 0%nat) + Rabs (v 1%nat))).
Proof. exact (se2_integrate_all eps q v). Qed.
Example C20_ex : onGroup LSE2 (join 2 (v2Out 7 (-2)) (v2Out (3 / 5) (4 / 5))) /\ - PI < 1 <= PI. Proof. exact se2_ex. Qed.
Print Assumptions C20_integrate.
Theorem C20_zero (eps : R) (q v : vec) : (forall k, (k < 3)%nat -> v k = 0) -> eqTo 4 (lg_integrate eps LSE2 q v) q.
Proof. exact (se2_zero eps q v). Qed.
Print Assumptions C20_zero.
(** difference is its inverse on headings in (-pi, pi]: exactly when |v2| >= 1e-4, otherwise within 1e-14 |v| *)
Theorem C20_difference_integrate (eps : R) (q v : vec) : onGroup LSE2 q -> - PI < v 2%nat <= PI ->
  let d := lg_difference eps LSE2 q (lg_integrate eps LSE2 q v) in
  d 2%nat = v 2%nat /\ (forall k, (k < 2)%nat -> Rabs (d k - v k) <= e14 * (Rabs (v 0%nat) + Rabs (v 1%nat))) /\
  (1 / 10 ^ 4 <= Rabs (v 2%nat) -> eqTo 3 d v).
Proof. exact (se2_diff_int_close eps q v). Qed.
(* hypotheses met: C20_ex *)
Print Assumptions C20_difference_integrate.
Theorem C20_integrate_difference (eps : R) (q p : vec) : onGroup LSE2 q -> onGroup LSE2 p -> reaches e14 LSE2 q p (lg_integrate eps LSE2 q (lg_difference eps LSE2 q p)).
Proof. exact (se2_reaches eps q p). Qed.
(* hypotheses met: C20_ex *)
Print Assumptions C20_integrate_difference.

(** ** C21: rotations and poses of space *)
(** the norm error of the result is at most the square of that of the exponential, itself at most 2 eE *)
Theorem C21_norm (eps : R) (q v : vec) : 0 < eps <= 1 / 4 ->
  (onGroup LSO3 q -> let e := qnorm2 (qexp3 eps (v3At v)) - 1 in Rabs (qnorm2 (quatAt (lg_integrate eps LSO3 q v)) - 1) <= e * e /\ Rabs e <= 2 * eE eps) /\
  (onGroup LSE3 q -> let e := qnorm2 (qexp3 eps (v3At (shift 3 v))) - 1 in Rabs (qnorm2 (quatAt (shift 3 (lg_integrate eps LSE3 q v))) - 1) <= e * e /\ Rabs e <= 2 * eE eps).
Proof. exact (so3se3_norm eps q v). Qed.
Example C21_ex : 0 < 1 / 4096 <= 1 / 64 /\ onGroup LSE3 exPose1 /\ onGroup LSO3 (shift 3 exPose1). Proof. exact se3_ex. Qed.
Print Assumptions C21_norm.
(** and it never grows beyond 16 eE^2, however long the sequence of integrations *)
Theorem C21_sequences (eps : R) (l : list vec) (q : vec) : 0 < eps <= 1 / 64 ->
  (onGroup LSO3 q -> Rabs (qnorm2 (quatAt (steps eps LSO3 q l)) - 1) <= 16 * eE eps * eE eps) /\
  (onGroup LSE3 q -> Rabs (qnorm2 (quatAt (shift 3 (steps eps LSE3 q l))) - 1) <= 16 * eE eps * eE eps).
Proof. exact (so3se3_steps eps l q). Qed.
(* hypotheses met: C21_ex *)
Print Assumptions C21_sequences.
Theorem C21_zero (eps : R) (q v : vec) : 0 < eps <= 1 / 4 ->
  (onGroup LSO3 q -> (forall k, (k < 3)%nat -> v k = 0) -> eqTo 4 (lg_integrate eps LSO3 q v) q) /\
  (onGroup LSE3 q -> (forall k, (k < 6)%nat -> v k = 0) -> eqTo 7 (lg_integrate eps LSE3 q v) q).
Proof. exact (fun H => conj (so3_zero eps q v H) (se3_zero eps q v H)). Qed.
(* hypotheses met: C21_ex *)
Print Assumptions C21_zero.
(** the rotation is composed with the exponential, the translation is advanced by its rotated translation *)
Theorem C21_so3 (eps : R) (q v : vec) : 0 < eps <= 1 / 4 -> onGroup LSO3 q ->
  qclose (4 * eE eps) (quatAt (lg_integrate eps LSO3 q v)) (qmul (quatAt q) (Qexp (v3At v))).
Proof. exact (so3_integrate_close eps q v). Qed.
(* hypotheses met: C21_ex *)
Print Assumptions C21_so3.
Theorem C21_se3 (eps : R) (q v : vec) : 0 < eps <= 1 / 4 -> onGroup LSE3 q -> let r := lg_integrate eps LSE3 q v in
  sameRotation (4 * eE eps) (quatAt (shift 3 r)) (qmul (quatAt (shift 3 q)) (Qexp (v3At (shift 3 v)))) /\
  v3At r = v3add (v3At q) (m3vec (qmat (quatAt (shift 3 q))) (fst (qexp6 eps (v6At v)))) /\
  v3close (28 * eps * v3norm (v3At v)) (v3At r) (v3add (v3At q) (m3vec (qmat (quatAt (shift 3 q))) (Texp (v6At v)))).
Proof. exact (se3_integrate_all eps q v). Qed.
(* hypotheses met: C21_ex *)
Print Assumptions C21_se3.

(** ** C60: configurations of a model. Every coordinate belongs to one simple joint (also inside composite joints); mimic joints own none *)
Theorem C60_coordinates (eps : R) (m : Model) : Built eps m ->
  (forall k, (k < m_nq m)%nat -> exists iq iv s, leafOf m iq iv s /\ (iq <= k < iq + nq1 s)%nat) /\
  (forall k, (k < m_nv m)%nat -> exists iq iv s, leafOf m iq iv s /\ (iv <= k < iv + nv1 s)%nat) /\
  (forall iq iv s, leafOf m iq iv s -> (iq + nq1 s <= m_nq m)%nat /\ (iv + nv1 s <= m_nv m)%nat).
Proof. exact (fun B => let W := Built_wf eps m B in conj (leaves_cover_q m W) (conj (leaves_cover_v m W) (leaf_in m W))). Qed.
Example C60_ex (eps : R) : Built eps (exTree eps) /\ validConf (exTree eps) (exQ 0) /\ validConf (exTree eps) (exQ 1) /\
  leafOf (exTree eps) 1 1 JFreeFlyer /\ leafOf (exTree eps) 8 7 JSpherical /\ exQ 0 0%nat <> exQ 1 0%nat.
Proof. exact (exLie eps). Qed.
Print Assumptions C60_coordinates.
(** the functions act on the coordinates of each simple joint as the operations of its group; out is the previous content *)
Theorem C60_integrate (eps e : R) (m : Model) (q v out : vec) : Built eps m ->
  (forall iq iv s, leafOf m iq iv s -> eqTo (nq1 s) (shift iq (integrate e m q v out)) (lg_integrate e (lieGroup1 s) (shift iq q) (shift iv v))) /\
  (forall k, (m_nq m <= k)%nat -> integrate e m q v out k = out k).
Proof. exact (fun B => let W := Built_wf eps m B in conj (fun iq iv s => integrate_leaf e m W q v out iq iv s) (integrate_rest e m W q v out)). Qed.
(* hypotheses met: C60_ex *)
Print Assumptions C60_integrate.
(** ... which is where the joint is after unit time at the constant velocity v: F is its exact motion (configRate1 of Spec_Joints) *)
Theorem C60_motion (eps e : R) (m : Model) (q v out : vec) : Built eps m -> 0 < e <= 1 / 4 -> validConf m q ->
  forall iq iv s, leafOf m iq iv s ->
  exists F, motionFrom s (shift iq q) (shift iv v) F /\ endsAt (motionErr e) s (shift iv v) (F 1) (shift iq (integrate e m q v out)).
Proof. exact (fun B => model_motion e m q v out (Built_wf eps m B)). Qed.
(* hypotheses met: C60_ex *)
Print Assumptions C60_motion.
Theorem C60_interpolate (eps e : R) (m : Model) (q0 q1 out : vec) (u : R) : Built eps m ->
  forall iq iv s, leafOf m iq iv s -> eqTo (nq1 s) (shift iq (interpolate e m q0 q1 u out)) (lg_interpolate e (lieGroup1 s) (shift iq q0) (shift iq q1) u).
Proof. exact (fun B iq iv s => interpolate_leaf e m (Built_wf eps m B) q0 q1 u out iq iv s). Qed.
(* hypotheses met: C60_ex *)
Print Assumptions C60_interpolate.
Theorem C60_difference (eps e : R) (m : Model) (q0 q1 out : vec) : Built eps m ->
  forall iq iv s, leafOf m iq iv s -> eqTo (nv1 s) (shift iv (difference e m q0 q1 out)) (lg_difference e (lieGroup1 s) (shift iq q0) (shift iq q1)).
Proof. exact (fun B iq iv s => difference_leaf e m (Built_wf eps m B) q0 q1 out iq iv s). Qed.
(* hypotheses met: C60_ex *)
Print Assumptions C60_difference.
(** integrating the difference reaches the second configuration, joint by joint, whatever the outputs held before *)
Theorem C60_round_trip (eps e : R) (m : Model) (q0 q1 out out' : vec) : Built eps m -> 0 < e <= 1 / 4096 -> validConf m q0 -> validConf m q1 ->
  forall iq iv s, leafOf m iq iv s -> reaches (reachErr e) (lieGroup1 s) (shift iq q0) (shift iq q1) (shift iq (integrate e m q0 (difference e m q0 q1 out) out')).
Proof. exact (fun B => model_round_trip e m (Built_wf eps m B) q0 q1 out out'). Qed.
(* hypotheses met: C60_ex *)
Print Assumptions C60_round_trip.
Theorem C60_zero (eps e : R) (m : Model) (q v out : vec) : Built eps m -> 0 < e <= 1 / 4 -> validConf m q -> (forall k, (k < m_nv m)%nat -> v k = 0) ->
  eqTo (m_nq m) (integrate e m q v out) q.
Proof. exact (fun B => model_zero e m (Built_wf eps m B) q v out). Qed.
(* hypotheses met: C60_ex *)
Print Assumptions C60_zero.
(** neutral: zeros, unit complex numbers and unit quaternions, a valid configuration *)
Theorem C60_neutral (eps : R) (m : Model) (out : vec) : Built eps m -> validConf m (neutral m out) /\
  forall iq iv s, leafOf m iq iv s -> eqTo (nq1 s) (shift iq (neutral m out)) (neutral1 s).
Proof. exact (fun B => model_neutral m (Built_wf eps m B) out). Qed.
(* hypotheses met: C60_ex *)
Print Assumptions C60_neutral.
(** normalize: a valid configuration when no circle or quaternion part is null, nothing to do on valid ones, Euclidean coordinates kept *)
Theorem C60_normalize (eps : R) (m : Model) (q : vec) : Built eps m ->
  ((forall iq iv s, leafOf m iq iv s -> nonzeroParts (lieGroup1 s) (shift iq q)) -> validConf m (normalize m q)) /\
  (validConf m q -> forall k, normalize m q k = q k) /\ (forall k, euclidean m k -> normalize m q k = q k) /\ (forall k, (m_nq m <= k)%nat -> normalize m q k = q k).
Proof. exact (fun B => let W := Built_wf eps m B in conj (normalize_valid m W q) (conj (normalize_same m W q) (conj (normalize_keeps m W q) (normalize_rest m W q)))). Qed.
(* hypotheses met: C60_ex *)
Print Assumptions C60_normalize.
Theorem C60_isNormalized (eps : R) (m : Model) (q : vec) : Built eps m -> (validConf m q <-> forall prec, 0 < prec -> isNormalized m q prec = true).
Proof. exact (fun B => isNormalized_valid m (Built_wf eps m B) q). Qed.
(* hypotheses met: C60_ex *)
Print Assumptions C60_isNormalized.
(** the sum of the squared distances is the squared norm of the difference, and 0 exactly on equal configurations *)
Theorem C60_distance (eps e : R) (m : Model) (q0 q1 out : vec) : Built eps m -> 0 < e <= 1 / 4096 -> validConf m q0 -> validConf m q1 ->
  squaredDistanceSum e m q0 q1 = sumTo (m_nv m) (fun k => difference e m q0 q1 out k * difference e m q0 q1 out k) /\
  sumTo (m_njoints m - 1) (squaredDistance e m q0 q1 (fun _ => 0)) = squaredDistanceSum e m q0 q1 /\
  (squaredDistanceSum e m q0 q1 = 0 <-> forall iq iv s, leafOf m iq iv s -> sameConf (lieGroup1 s) (shift iq q0) (shift iq q1)).
Proof. exact (fun B H V0 V1 => let W := Built_wf eps m B in conj (dsum_norm e m W q0 q1 out) (conj (dist_total e m q0 q1) (proj2 (dsum_zero e m W q0 q1 H V0 V1)))). Qed.
(* hypotheses met: C60_ex *)
Print Assumptions C60_distance.
(** the version of squaredDistance with an output argument adds to what the argument held *)
Theorem C60_distance_output_refuted (eps e : R) (m : Model) (q0 q1 out : vec) (k : nat) : Built eps m -> (k < m_njoints m - 1)%nat ->
  squaredDistance e m q0 q1 out k = out k + squaredDistance e m q0 q1 (fun _ => 0) k.
Proof. exact (fun _ => dist_accumulates e m q0 q1 out k). Qed.
(* hypotheses met: C60_ex *)
Print Assumptions C60_distance_output_refuted.

(** ** C51: for every random stream, a valid configuration within the limits, or an exception exactly when a limit is infinite *)
Theorem C51_random (eps : R) (m : Model) (lower upper : nat -> option R) (r out : vec) : Built eps m -> stream r -> orderedLimits lower upper ->
  match randomConfiguration m lower upper r out with
  | Ok q _ => validConf m q /\ (forall k, euclidean m k -> inLimit lower upper k (q k)) /\ (forall k, (m_nq m <= k)%nat -> q k = out k)
  | Throw _ => exists k, euclidean m k /\ (lower k = None \/ upper k = None)
  | Undef => False
  end.
Proof. exact (fun B => random_model m (Built_wf eps m B) lower upper r out). Qed.
Example C51_ex (eps : R) : Built eps (exTree eps) /\ stream (fun k => / INR (S k)) /\ orderedLimits (fun _ => Some (-1)) (fun k => if Nat.eqb k 2 then None else Some 1) /\ euclidean (exTree eps) 2.
Proof. exact (random_ex eps). Qed.
Print Assumptions C51_random.
Theorem C51_infinite (eps : R) (m : Model) (lower upper : nat -> option R) (r out : vec) : Built eps m -> stream r -> orderedLimits lower upper ->
  (exists k, euclidean m k /\ (lower k = None \/ upper k = None)) -> exists o, randomConfiguration m lower upper r out = Throw o.
Proof. exact (fun B => random_model_ok m (Built_wf eps m B) lower upper r out). Qed.
(* hypotheses met: C51_ex *)
Print Assumptions C51_infinite.
(** the same on a single group, or product of groups *)
Theorem C51_group (g : LG) (lower upper : nat -> option R) (r : vec) : stream r -> orderedLimits lower upper ->
  match lg_random g lower upper r with
  | Some (q, _) => onGroup g q /\ (forall k, euclid g k -> inLimit lower upper k (q k))
  | None => exists k, euclid g k /\ (lower k = None \/ upper k = None)
  end.
Proof. exact (random_group g lower upper r). Qed.
(* hypotheses met: C51_ex *)
Print Assumptions C51_group.
