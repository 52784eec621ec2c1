(* C79: the derivatives of integrate and difference *)
Require Import Reals Arith List.
From Verif Require Import Vec3 Spatial Joints Model Spec_Model ModelFacts3 ModelFacts Deriv ExpJac Kinematics LieGroup Spec_Lie LieFacts7 LieDer Spec_LieDer LieDerFacts3 LieDerFacts6 LieDerFacts7 LieDerEx.
Local Open Scope R_scope.

(** dIntegrate, on every group and product of groups: when the configuration q moves at w and the tangent vector v at dv, the
    configuration q + v moves at dIntegrate(ARG0) w + dIntegrate(ARG1) dv: exactly on vector spaces, SO(2) and SE(2), up to
    12 eps |w| on SO(3) and eps (12 + 240 |v|) |w| on SE(3) *)
Theorem C79_dIntegrate (eps : R) (g : LG) (q v p : R -> vec) (w dv : vec) (t : R) (J K : jac) :
  0 < eps <= 1 / 4 -> turning eps g (v t) -> movesAt g q w t -> derivTo (lg_nv g) v dv t -> (forall u, leadsTo g (q u) (v u) (p u)) ->
  exists w', movesAt g p w' t /\ sameRate eps g (v t) w w'
    (fun k => jacMul (lg_nv g) (lg_dIntegrate eps g ARG0 SETTO (v t) J) w k + jacMul (lg_nv g) (lg_dIntegrate eps g ARG1 SETTO (v t) K) dv k).
Proof. exact (fun H T M D L => dIntegrate_rate eps g q w v dv p t J K H T M D L). Qed.
Example C79_dIntegrate_ex : 0 < 1 / 16 <= 1 / 4 /\ turning (1 / 16) exG (exD 0) /\ movesAt exG exQ0 exW0 0 /\ derivTo (lg_nv exG) exD exDd 0 /\ (forall u, leadsTo exG (exQ0 u) (exD u) (exQ1 u)).
Proof. exact dIntegrate_ex. Qed.
Print Assumptions C79_dIntegrate.
(** dDifference: when q0 moves at w0 and q1 at w1, the shortest tangent vector from q0 to q1 changes at dDifference(ARG0) w0 + dDifference(ARG1) w1 *)
Theorem C79_dDifference (eps : R) (g : LG) (q0 q1 d : R -> vec) (w0 w1 : vec) (t : R) :
  0 < eps <= 1 / 4096 -> (forall u, onGroup g (q0 u)) -> (forall u, onGroup g (q1 u)) -> movesAt g q0 w0 t -> movesAt g q1 w1 t ->
  (forall u, leadsTo g (q0 u) (d u) (q1 u)) -> (forall u, shortest g (d u)) -> apart eps g (d t) ->
  derivTo (lg_nv g) d (fun k => jacMul (lg_nv g) (lg_dDifference eps g ARG0 (q0 t) (q1 t)) w0 k + jacMul (lg_nv g) (lg_dDifference eps g ARG1 (q0 t) (q1 t)) w1 k) t.
Proof. exact (dDifference_rate eps g q0 q1 w0 w1 d t). Qed.
Example C79_dDifference_ex : exists w1, 0 < 1 / 4096 <= 1 / 4096 /\ (forall u, onGroup exG (exQ0 u)) /\ (forall u, onGroup exG (exQ1 u)) /\ movesAt exG exQ0 exW0 0 /\ movesAt exG exQ1 w1 0 /\
  (forall u, leadsTo exG (exQ0 u) (exD u) (exQ1 u)) /\ (forall u, shortest exG (exD u)) /\ apart (1 / 4096) exG (exD 0).
Proof. exact dDifference_ex. Qed.
Print Assumptions C79_dDifference.
(** the assignment operators: ADDTO adds the matrix to what the argument held, RMTO removes it, SETTO does not read the argument *)
Theorem C79_operators (eps : R) (g : LG) (arg : ArgPos) (v : vec) (J K : jac) (k l : nat) : (k < lg_nv g)%nat -> (l < lg_nv g)%nat ->
  lg_dIntegrate eps g arg SETTO v J k l = lg_dIntegrate eps g arg SETTO v K k l /\
  lg_dIntegrate eps g arg ADDTO v J k l = J k l + lg_dIntegrate eps g arg SETTO v K k l /\
  lg_dIntegrate eps g arg RMTO v J k l = J k l - lg_dIntegrate eps g arg SETTO v K k l.
Proof. exact (fun Hk Hl => conj (lg_ops eps g arg SETTO v J K k l Hk Hl) (conj (lg_ops eps g arg ADDTO v J K k l Hk Hl) (lg_ops eps g arg RMTO v J K k l Hk Hl))). Qed.
(* hypotheses met: k = 0, l = 3 on exG *)
Print Assumptions C79_operators.
(** dIntegrateTransport is the product with the matrix of dIntegrate, and its version in place computes the same *)
Theorem C79_transport (eps : R) (g : LG) (arg : ArgPos) (v : vec) (Jin J : jac) (k l : nat) : (k < lg_nv g)%nat ->
  lg_transport eps g arg v Jin k l = jacMul (lg_nv g) (lg_dIntegrate eps g arg SETTO v J) (fun j => Jin j l) k /\
  lg_transportInPlace eps g arg v Jin k l = lg_transport eps g arg v Jin k l.
Proof. exact (fun Hk => conj (lg_transport_sum eps g arg v Jin J k l Hk) (lg_inPlace eps g arg v Jin k l Hk)). Qed.
(* hypotheses met: k = 3 on exG *)
Print Assumptions C79_transport.

(** on models: each simple joint (also in a composite joint) gets the matrix of its group in its diagonal block, and the other entries keep their values *)
Theorem C79_model_blocks (eps e : R) (m : Model) (v q0 q1 : vec) (J : jac) (arg : ArgPos) (op : AssignOp) : Built e m ->
  (forall iq iv s x y, leafOf m iq iv s -> (x < nv1 s)%nat -> (y < nv1 s)%nat ->
     dIntegrate eps m v J arg op (iv + x)%nat (iv + y)%nat = lg_dIntegrate eps (lieGroup1 s) arg op (shift iv v) (blockAt iv iv J) x y /\
     dDifference eps m q0 q1 J arg (iv + x)%nat (iv + y)%nat = lg_dDifference eps (lieGroup1 s) arg (shift iq q0) (shift iq q1) x y) /\
  (forall k l, separate m k l -> dIntegrate eps m v J arg op k l = J k l /\ dDifference eps m q0 q1 J arg k l = J k l).
Proof.
  exact (fun B => let W := Built_wf e m B in
    conj (fun iq iv s x y L Hx Hy => conj (dIntegrate_leaf m W eps v J arg op iq iv s x y L Hx Hy) (dDifference_leaf m W eps q0 q1 J arg iq iv s x y L Hx Hy))
         (fun k l S => conj (dIntegrate_off m W eps v J arg op k l S) (dDifference_off m W eps q0 q1 J arg k l S))).
Qed.
(* hypotheses met: C79_model_ex *)
Print Assumptions C79_model_blocks.
(** with matrices of zeros: when q moves at w and v at dv, each joint of q + v moves at the velocity dIntegrate(ARG0) w + dIntegrate(ARG1) dv *)
Theorem C79_model_dIntegrate (eps e : R) (m : Model) (q v p : R -> vec) (w dv : vec) (t : R) (iq iv : nat) (s : Joint1) : Built e m -> 0 < eps <= 1 / 4 -> leafOf m iq iv s ->
  turning eps (lieGroup1 s) (shift iv (v t)) -> movesAt (lieGroup1 s) (fun u => shift iq (q u)) (shift iv w) t -> derivTo (m_nv m) v dv t ->
  (forall u, leadsTo (lieGroup1 s) (shift iq (q u)) (shift iv (v u)) (shift iq (p u))) ->
  exists w', movesAt (lieGroup1 s) (fun u => shift iq (p u)) w' t /\ sameRate eps (lieGroup1 s) (shift iv (v t)) (shift iv w) w'
    (shift iv (fun k => jacMul (m_nv m) (dIntegrate eps m (v t) zeroJac ARG0 SETTO) w k + jacMul (m_nv m) (dIntegrate eps m (v t) zeroJac ARG1 SETTO) dv k)).
Proof. exact (fun B => model_dIntegrate_rate m (Built_wf e m B) eps q v p w dv t iq iv s). Qed.
Example C79_model_ex (e : R) : Built e (exTree e) /\ leafOf (exTree e) 1 1 JFreeFlyer /\ (forall u, validConf (exTree e) (exQ0 u)) /\ derivTo (m_nv (exTree e)) exD exDd 0 /\ forall iq iv s, leafOf (exTree e) iq iv s ->
  turning (1 / 16) (lieGroup1 s) (shift iv (exD 0)) /\ movesAt (lieGroup1 s) (fun u => shift iq (exQ0 u)) (shift iv exW0) 0 /\ (forall u, leadsTo (lieGroup1 s) (shift iq (exQ0 u)) (shift iv (exD u)) (shift iq (exQ1 u))).
Proof. exact (model_ex e). Qed.
Print Assumptions C79_model_dIntegrate.
Theorem C79_model_dDifference (eps e : R) (m : Model) (q0 q1 d : R -> vec) (w0 w1 : vec) (t : R) : Built e m -> 0 < eps <= 1 / 4096 -> (forall u, validConf m (q0 u)) -> (forall u, validConf m (q1 u)) ->
  (forall iq iv s, leafOf m iq iv s -> movesAt (lieGroup1 s) (fun u => shift iq (q0 u)) (shift iv w0) t /\ movesAt (lieGroup1 s) (fun u => shift iq (q1 u)) (shift iv w1) t /\
     (forall u, leadsTo (lieGroup1 s) (shift iq (q0 u)) (shift iv (d u)) (shift iq (q1 u))) /\ (forall u, shortest (lieGroup1 s) (shift iv (d u))) /\ apart eps (lieGroup1 s) (shift iv (d t))) ->
  derivTo (m_nv m) d (fun k => jacMul (m_nv m) (dDifference eps m (q0 t) (q1 t) zeroJac ARG0) w0 k + jacMul (m_nv m) (dDifference eps m (q0 t) (q1 t) zeroJac ARG1) w1 k) t.
Proof. exact (fun B => model_dDifference_rate m (Built_wf e m B) eps q0 q1 d w0 w1 t). Qed.
Example C79_model_dDifference_ex (e : R) : exists w1, (forall u, validConf (exTree e) (exQ0 u)) /\ (forall u, validConf (exTree e) (exQ1 u)) /\
  (forall iq iv s, leafOf (exTree e) iq iv s -> movesAt (lieGroup1 s) (fun u => shift iq (exQ0 u)) (shift iv exW0) 0 /\ movesAt (lieGroup1 s) (fun u => shift iq (exQ1 u)) (shift iv w1) 0 /\
     (forall u, leadsTo (lieGroup1 s) (shift iq (exQ0 u)) (shift iv (exD u)) (shift iq (exQ1 u))) /\ (forall u, shortest (lieGroup1 s) (shift iv (exD u))) /\ apart (1 / 4096) (lieGroup1 s) (shift iv (exD 0))).
Proof. exact (model_diff_ex e). Qed.
Print Assumptions C79_model_dDifference.
(** transport of the tangent vectors of a model, with an output and in place *)
Theorem C79_model_transport (eps e : R) (m : Model) (v : vec) (Jin Jout : jac) (arg : ArgPos) (k l : nat) : Built e m ->
  ((k < m_nv m)%nat -> dIntegrateTransport eps m v Jin Jout arg k l = jacMul (m_nv m) (dIntegrate eps m v zeroJac arg SETTO) (fun j => Jin j l) k /\
                       dIntegrateTransportInPlace eps m v Jin arg k l = jacMul (m_nv m) (dIntegrate eps m v zeroJac arg SETTO) (fun j => Jin j l) k) /\
  ((m_nv m <= k)%nat -> dIntegrateTransport eps m v Jin Jout arg k l = Jout k l /\ dIntegrateTransportInPlace eps m v Jin arg k l = Jin k l).
Proof.
  exact (fun B => let W := Built_wf e m B in conj (fun H => conj (transport_product m W eps v Jin Jout arg k l H) (inPlace_product m W eps v Jin arg k l H))
    (fun H => conj (transport_rest m W eps v Jin Jout arg k l H) (inPlace_rest m W eps v Jin arg k l H))).
Qed.
(* hypotheses met: C79_model_ex *)
Print Assumptions C79_model_transport.
