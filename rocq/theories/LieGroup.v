(* multibody/liegroup: vector-space.hpp, special-orthogonal.hpp, special-euclidean.hpp, cartesian-product.hpp and the
   defaults of liegroup-base.hxx; quaternion::log3 and log6 they call; algorithm/joint-configuration.hxx.
   Configurations and tangent vectors are functions from indexes to reals, read below nq or nv.  eps is the machine
   epsilon.  Output buffers are written back by the callers of Model level (see writeSeg). *)
Require Import Reals Arith Bool List.
From Verif Require Import Vec3 Spatial Joints Model Spec_Model Kinematics Rot ExpLog.
Local Open Scope R_scope.

(* ---------- quaternion::log3, log6 ---------- *)
(* math/taylor-expansion.hpp 30-36: precision<2>() = pow(eps, 1/3) *)
Definition ts2 (eps : R) : R := Rpower eps (/ 3).
(* explog-quaternion.hpp 205-261: the vector and the angle *)
Definition qlog3 (eps : R) (quat : Quat) : V3 * R :=
  let norm_squared := v3norm2 (qvec quat) in let norm := sqrt (norm_squared + eps * eps) in
  let pos_neg := if Rle_dec 0 (qw quat) then 1 else -1 in
  let w := pos_neg * qw quat in
  let theta_2 := atan2 norm w in let y_x := norm / w in let y_x_sq := norm_squared / (w * w) in
  let small := if Rlt_dec norm_squared (ts2 eps) then true else false in
  let theta := if small then 2 * (1 - y_x_sq / 3) * y_x else 2 * theta_2 in
  let th2_2 := theta * theta / 4 in
  let inv_sinc := if small then 2 * (1 + th2_2 / 6 + 7 / 360 * th2_2 * th2_2) else theta / sin theta_2 in
  (v3scale inv_sinc (v3scale pos_neg (qvec quat)), theta).
(* log.hxx 233-289 *)
Definition qlog6 (eps : R) (quat : Quat) (vec : V3) : V6 :=
  let pos_neg := if Rle_dec 0 (qw quat) then 1 else -1 in
  let w := fst (qlog3 eps quat) in let theta := snd (qlog3 eps quat) in
  let t2 := v3norm2 w in
  let ct_2 := pos_neg * qw quat in let st_2 := sqrt (v3norm2 (qvec quat) + eps * eps) in
  let cot_th_2 := ct_2 / st_2 in let th_2_squared := t2 / 4 in
  let beta_alt := (1 / 3 - th_2_squared / 45) / 4 in
  let beta := if Rle_dec theta (ts3 eps) then beta_alt else 1 / t2 - cot_th_2 * (1 / 2) / theta in
  mkV6 (v3add (v3sub vec (v3scale (1 / 2) (v3cross w vec))) (v3scale beta (v3cross w (v3cross w vec)))) w.
(* Eigen::QuaternionBase::_transformVector, the product of a quaternion and a vector *)
Definition qtransform (q : Quat) (v : V3) : V3 :=
  let uv := v3scale 2 (v3cross (qvec q) v) in v3add (v3add v (v3scale (qw q) uv)) (v3cross (qvec q) uv).

(* ---------- the groups ---------- *)
(* VectorSpaceOperationTpl<n>, SpecialOrthogonalOperationTpl<2 and 3>, SpecialEuclideanOperationTpl<2 and 3>,
   CartesianProductOperation *)
Inductive LG := LVec (n : nat) | LSO2 | LSO3 | LSE2 | LSE3 | LProd (a b : LG).
Fixpoint lg_nq (g : LG) : nat :=
  match g with LVec n => n | LSO2 => 2 | LSO3 => 4 | LSE2 => 4 | LSE3 => 7 | LProd a b => lg_nq a + lg_nq b end.
Fixpoint lg_nv (g : LG) : nat :=
  match g with LVec n => n | LSO2 => 1 | LSO3 => 3 | LSE2 => 3 | LSE3 => 6 | LProd a b => lg_nv a + lg_nv b end.
(* head and tail of a product: cartesian-product.hpp 330-400 *)
Definition join (n : nat) (f g : vec) : vec := fun k => if k <? n then f k else g (k - n)%nat.
Definition quatAt (q : vec) : Quat := mkQ (q 0%nat) (q 1%nat) (q 2%nat) (q 3%nat).
Definition quatOut (p : Quat) : vec := fun k => match k with 0%nat => qx p | 1%nat => qy p | 2%nat => qz p | 3%nat => qw p | _ => 0 end.
Definition v3At (q : vec) : V3 := mkV3 (q 0%nat) (q 1%nat) (q 2%nat).
Definition v3Out (p : V3) : vec := fun k => match k with 0%nat => vx p | 1%nat => vy p | 2%nat => vz p | _ => 0 end.
Definition v6At (q : vec) : V6 := mkV6 (v3At q) (v3At (shift 3 q)).
Definition v6Out (p : V6) : vec := join 3 (v3Out (lin p)) (v3Out (ang p)).
Definition v2Out (x y : R) : vec := fun k => match k with 0%nat => x | 1%nat => y | _ => 0 end.

(* special-orthogonal.hpp 59-98; the matrix is [r00 r01; r10 r11] *)
Definition so2_log (r00 r01 r10 r11 : R) : R :=
  let tr := r00 + r11 in
  if Rlt_dec 2 tr then 0
  else if Rlt_dec tr (-2) then (if Rle_dec 0 r10 then PI else - PI)
  else if Rlt_dec (2 - 1 / 100) tr then asin ((r10 - r01) / 2)
  else if Rle_dec 0 r10 then acos (tr / 2) else - acos (tr / 2).
(* special-euclidean.hpp 60-90: the rotation (c, s) and the translation.  Division by 0 at v2 = 0 is not selected *)
Definition se2_exp (v0 v1 v2 : R) : R * R * R * R :=
  let omega := v2 in let cv := cos omega in let sv := sin omega in
  let c0 := (- v1 - (- v1 * cv + v0 * - sv)) / omega in
  let c1 := (v0 - (- v1 * sv + v0 * cv)) / omega in
  let big := if Rlt_dec (1 / 10 ^ 14) (Rabs omega) then true else false in
  (cv, sv, if big then c0 else v0, if big then c1 else v1).
(* special-euclidean.hpp 131-160 *)
Definition se2_log (r00 r01 r10 r11 p0 p1 : R) : R * R * R :=
  let t := so2_log r00 r01 r10 r11 in let tabs := Rabs t in let t2 := t * t in
  let st := sin tabs in let ct := cos tabs in
  let alpha := if Rlt_dec tabs (1 / 10 ^ 4) then 1 - t2 / 12 - t2 * t2 / 720 else tabs * st / (2 * (1 - ct)) in
  (alpha * p0 + t / 2 * p1, alpha * p1 + - t / 2 * p0, t).

(* integrate_impl: vector-space.hpp 141-148, special-orthogonal.hpp 163-185 and 466-481, special-euclidean.hpp 288-306 and
   659-699, cartesian-product.hpp 121-129 *)
Fixpoint lg_integrate (eps : R) (g : LG) (q v : vec) : vec :=
  match g with
  | LVec _ => fun k => q k + v k
  | LSO2 =>
      let ca := q 0%nat in let sa := q 1%nat in let omega := v 0%nat in
      let cw := cos omega in let sw := sin omega in
      let o0 := cw * ca - sw * sa in let o1 := sw * ca + cw * sa in
      let norm2 := o0 * o0 + o1 * o1 in let k := (3 - norm2) / 2 in v2Out (o0 * k) (o1 * k)
  | LSO3 => quatOut (firstOrderNormalize (qmul (quatAt q) (qexp3 eps (v3At v))))
  | LSE2 =>
      let '(cv, sv, t0, t1) := se2_exp (v 0%nat) (v 1%nat) (v 2%nat) in
      let c := q 2%nat in let s := q 3%nat in
      join 2 (v2Out (c * t0 + - s * t1 + q 0%nat) (s * t0 + c * t1 + q 1%nat)) (v2Out (c * cv + - s * sv) (s * cv + c * sv))
  | LSE3 =>
      let quat := quatAt (shift 3 q) in let e := qexp6 eps (v6At v) in
      let res := qmul quat (snd e) in
      let res := if Rlt_dec (qdot res quat) 0 then qscale (-1) res else res in
      join 3 (v3Out (v3add (qtransform quat (fst e)) (v3At q))) (quatOut (firstOrderNormalize res))
  | LProd a b => join (lg_nq a) (lg_integrate eps a q v) (lg_integrate eps b (shift (lg_nq a) q) (shift (lg_nv a) v))
  end.
(* difference_impl: vector-space.hpp 82-89, special-orthogonal.hpp 135-146 and 405-418, special-euclidean.hpp 229-246 and
   594-611, cartesian-product.hpp 98-106 *)
Fixpoint lg_difference (eps : R) (g : LG) (q0 q1 : vec) : vec :=
  match g with
  | LVec _ => fun k => q1 k - q0 k
  | LSO2 =>
      let r00 := q0 0%nat * q1 0%nat + q0 1%nat * q1 1%nat in let r10 := q0 0%nat * q1 1%nat - q0 1%nat * q1 0%nat in
      fun _ => so2_log r00 (- r10) r10 r00
  | LSO3 => v3Out (fst (qlog3 eps (qmul (qconj (quatAt q0)) (quatAt q1))))
  | LSE2 =>
      let c0 := q0 2%nat in let s0 := q0 3%nat in let c1 := q1 2%nat in let s1 := q1 3%nat in
      let x := q1 0%nat - q0 0%nat in let y := q1 1%nat - q0 1%nat in
      let '(d0, d1, d2) := se2_log (c0 * c1 + s0 * s1) (c0 * - s1 + s0 * c1) (- s0 * c1 + c0 * s1) (- s0 * - s1 + c0 * c1)
                                   (c0 * x + s0 * y) (- s0 * x + c0 * y) in
      v3Out (mkV3 d0 d1 d2)
  | LSE3 =>
      let quat0 := quatAt (shift 3 q0) in let quat1 := quatAt (shift 3 q1) in
      let dv := qtransform (qconj quat0) (v3sub (v3At q1) (v3At q0)) in
      v6Out (qlog6 eps (qmul (qconj quat0) quat1) dv)
  | LProd a b => join (lg_nv a) (lg_difference eps a q0 q1) (lg_difference eps b (shift (lg_nq a) q0) (shift (lg_nq a) q1))
  end.
(* interpolate_impl: special-orthogonal.hpp 282-329 and 627-645; the default of liegroup-base.hxx 627-640 otherwise, also
   for products *)
Definition lg_interpolate (eps : R) (g : LG) (q0 q1 : vec) (u : R) : vec :=
  match g with
  | LSO2 =>
      let cosTheta := q0 0%nat * q1 0%nat + q0 1%nat * q1 1%nat in
      let sinTheta := q0 0%nat * q1 1%nat - q0 1%nat * q1 0%nat in
      let theta := atan2 sinTheta cosTheta in let abs_theta := Rabs theta in
      fun k => if Rlt_dec abs_theta (1 / 10 ^ 6) then (1 - u) * q0 k + u * q1 k
               else if Rlt_dec abs_theta (PI - 1 / 10 ^ 6)
               then sin ((1 - u) * theta) / sinTheta * q0 k + sin (u * theta) / sinTheta * q1 k
               else q0 k
  | _ => lg_integrate eps g q0 (fun k => u * lg_difference eps g q0 q1 k)
  end.
Fixpoint sumTo (n : nat) (f : vec) : R := match n with O => 0 | S k => sumTo k f + f k end.
(* liegroup-base.hxx 642-655 and the overrides of special-orthogonal.hpp 647-657, special-euclidean.hpp 877-887: the squared
   norm of the difference; cartesian-product.hpp 248-253: the sum of the two distances *)
Fixpoint lg_squaredDistance (eps : R) (g : LG) (q0 q1 : vec) : R :=
  match g with
  | LProd a b => lg_squaredDistance eps a q0 q1 + lg_squaredDistance eps b (shift (lg_nq a) q0) (shift (lg_nq a) q1)
  | _ => let d := lg_difference eps g q0 q1 in sumTo (lg_nv g) (fun k => d k * d k)
  end.
(* neutral: vector-space.hpp 71-74, special-orthogonal.hpp 122-127 and 392-398, special-euclidean.hpp 217-222 and 581-587,
   cartesian-product.hpp 82-89 *)
Fixpoint lg_neutral (g : LG) : vec :=
  match g with
  | LVec _ => fun _ => 0
  | LSO2 => v2Out 1 0
  | LSO3 => quatOut (mkQ 0 0 0 1)
  | LSE2 => join 2 (v2Out 0 0) (v2Out 1 0)
  | LSE3 => join 3 (v3Out v3zero) (quatOut (mkQ 0 0 0 1))
  | LProd a b => join (lg_nq a) (lg_neutral a) (lg_neutral b)
  end.
(* randomConfiguration_impl: vector-space.hpp 284-305, special-orthogonal.hpp 345-362 and 673-689,
   special-euclidean.hpp 501-508 and 909-916 (R2 x SO(2) and R3 x SO(3)), cartesian-product.hpp 275-283.
   An infinite limit is None; r is the stream of rand() / RAND_MAX; the result is the configuration and the number of draws,
   None is the exception (the entries of the
   segment written before it are not modelled) *)
Fixpoint lg_random (g : LG) (lower upper : nat -> option R) (r : vec) : option (vec * nat) :=
  let box := fix box n : option (vec * nat) :=
    match n with
    | O => Some (fun _ => 0, O)
    | S k => match box k, lower k, upper k with
             | Some (q, c), Some l, Some u => Some (fun i => if i =? k then l + (u - l) * r k else q i, n)
             | _, _, _ => None
             end
    end in
  let circle (r : R) := let angle := - PI + 2 * PI * r in v2Out (cos angle) (sin angle) in
  match g with
  | LVec n => box n
  | LSO2 => Some (circle (r 0%nat), 1%nat)
  | LSO3 => Some (quatOut (uniformRandomQ (r 0%nat) (r 1%nat) (r 2%nat)), 3%nat)
  | LSE2 => match box 2%nat with Some (q, c) => Some (join 2 q (circle (r c)), c + 1)%nat | None => None end
  | LSE3 => match box 3%nat with
            | Some (q, c) => Some (join 3 q (quatOut (uniformRandomQ (r c) (r (c + 1)) (r (c + 2))))%nat, c + 3)%nat
            | None => None
            end
  | LProd a b =>
      match lg_random a lower upper r with
      | Some (qa, ca) =>
          match lg_random b (fun k => lower (lg_nq a + k)%nat) (fun k => upper (lg_nq a + k)%nat) (shift ca r) with
          | Some (qb, cb) => Some (join (lg_nq a) qa qb, ca + cb)%nat
          | None => None
          end
      | None => None
      end
  end.
(* normalize_impl: vector-space.hpp 268-271 (nothing), special-orthogonal.hpp 331-335 and 659-663, special-euclidean.hpp
   481-485 and 889-893; math/matrix.hpp 248-253 divides by the norm (Eigen: only when the squared norm is positive) *)
Definition norm2Of (n : nat) (q : vec) : R := sumTo n (fun k => q k * q k).
Definition vnormalize (n : nat) (q : vec) : vec := fun k => if Rlt_dec 0 (norm2Of n q) then q k / sqrt (norm2Of n q) else q k.
Fixpoint lg_normalize (g : LG) (q : vec) : vec :=
  match g with
  | LVec _ => q
  | LSO2 => vnormalize 2 q
  | LSO3 => vnormalize 4 q
  | LSE2 => join 2 q (vnormalize 2 (shift 2 q))
  | LSE3 => join 3 q (vnormalize 4 (shift 3 q))
  | LProd a b => join (lg_nq a) (lg_normalize a q) (lg_normalize b (shift (lg_nq a) q))
  end.
(* isNormalized_impl: vector-space.hpp 273-278, special-orthogonal.hpp 337-343 and 665-671, special-euclidean.hpp 487-493 and
   895-901, cartesian-product.hpp 262-266 *)
Fixpoint lg_isNormalized (g : LG) (q : vec) (prec : R) : bool :=
  let unit n q := if Rlt_dec (Rabs (sqrt (norm2Of n q) - 1)) prec then true else false in
  match g with
  | LVec _ => true
  | LSO2 => unit 2%nat q
  | LSO3 => unit 4%nat q
  | LSE2 => unit 2%nat (shift 2 q)
  | LSE3 => unit 4%nat (shift 3 q)
  | LProd a b => lg_isNormalized a q prec && lg_isNormalized b (shift (lg_nq a) q) prec
  end.

(* ---------- joints and models ---------- *)
(* multibody/liegroup/liegroup.hpp 19-70 *)
Definition lieGroup1 (j : Joint1) : LG :=
  match j with
  | JSpherical => LSO3
  | JFreeFlyer => LSE3
  | JPlanar => LSE2
  | JRUB _ | JRUBUnaligned _ => LSO2
  | _ => LVec (nq1 j)
  end.
(* the simple joints visited by a step and the indexes of their segments, relative to the indexes of the joint: liegroup-algo.hxx
   14-27 (composite joints are visited joint by joint); a mimic joint has the empty segments of nq() = nv() = 0 *)
Fixpoint pieces (j : Joint) : list (LG * nat * nat) :=
  match j with
  | JSimple s => (lieGroup1 s, 0, 0)%nat :: nil
  | JMimic _ _ _ => nil
  | JComposite l =>
      (fix go (l : list (SE3 * Joint)) (iq iv : nat) :=
         match l with
         | nil => nil
         | (_, s) :: l => map (fun p => (fst (fst p), snd (fst p) + iq, snd p + iv)%nat) (pieces s) ++ go l (iq + jnq s)%nat (iv + jnv s)%nat
         end) l 0%nat 0%nat
  end.
(* the segments of joint i in the vectors of the model *)
Definition jointPieces (m : Model) (i : nat) : list (LG * nat * nat) :=
  map (fun p => (fst (fst p), snd (fst p) + jm_idx_q (joint m i), snd p + jm_idx_v (joint m i))%nat) (pieces (jm_type (joint m i))).
(* the loops of joint-configuration.hxx run over the joints 1 .. njoints - 1 *)
Definition modelPieces (m : Model) : list (LG * nat * nat) := flat_map (jointPieces m) (seq 1 (m_njoints m - 1)).
(* assignment to a segment of a vector *)
Definition writeSeg (i n : nat) (x out : vec) : vec := fun k => if (i <=? k) && (k <? i + n) then x (k - i)%nat else out k.
(* joint-configuration.hxx 25-50: integrate(model, q, v, qout); out is the previous content of qout *)
Definition integrate (eps : R) (m : Model) (q v out : vec) : vec :=
  fold_left (fun out p => let '(g, iq, iv) := p in writeSeg iq (lg_nq g) (lg_integrate eps g (shift iq q) (shift iv v)) out) (modelPieces m) out.
(* joint-configuration.hxx 58-83 *)
Definition interpolate (eps : R) (m : Model) (q0 q1 : vec) (u : R) (out : vec) : vec :=
  fold_left (fun out p => let '(g, iq, _) := p in writeSeg iq (lg_nq g) (lg_interpolate eps g (shift iq q0) (shift iq q1) u) out) (modelPieces m) out.
(* joint-configuration.hxx 92-116 *)
Definition difference (eps : R) (m : Model) (q0 q1 out : vec) : vec :=
  fold_left (fun out p => let '(g, iq, iv) := p in writeSeg iv (lg_nv g) (lg_difference eps g (shift iq q0) (shift iq q1)) out) (modelPieces m) out.
(* joint-configuration.hxx 125-149 with liegroup-algo.hxx 500-517: every step adds to the entry of its joint *)
Definition squaredDistance (eps : R) (m : Model) (q0 q1 out : vec) : vec :=
  fold_left (fun out i =>
    fold_left (fun out p => let '(g, iq, _) := p in
      fun k => if k =? i then out k + lg_squaredDistance eps g (shift iq q0) (shift iq q1) else out k) (jointPieces m (i + 1)) out)
    (seq 0 (m_njoints m - 1)) out.
(* joint-configuration.hxx 367-389 *)
Definition squaredDistanceSum (eps : R) (m : Model) (q0 q1 : vec) : R :=
  fold_left (fun s p => let '(g, iq, _) := p in s + lg_squaredDistance eps g (shift iq q0) (shift iq q1)) (modelPieces m) 0.
(* joint-configuration.hxx 190-206 *)
Definition neutral (m : Model) (out : vec) : vec :=
  fold_left (fun out p => let '(g, iq, _) := p in writeSeg iq (lg_nq g) (lg_neutral g) out) (modelPieces m) out.
(* joint-configuration.hxx 415-432 *)
Definition normalize (m : Model) (q : vec) : vec :=
  fold_left (fun q p => let '(g, iq, _) := p in writeSeg iq (lg_nq g) (lg_normalize g (shift iq q)) q) (modelPieces m) q.
(* joint-configuration.hxx 440-464 *)
Definition isNormalized (m : Model) (q : vec) (prec : R) : bool :=
  fold_left (fun b p => let '(g, iq, _) := p in if b : bool then lg_isNormalized g (shift iq q) prec else false) (modelPieces m) true.
(* joint-configuration.hxx 158-182: the exception leaves the steps done so far in the output *)
Definition randomConfiguration (m : Model) (lower upper : nat -> option R) (r out : vec) : Res vec nat :=
  fold_left (fun acc p => let '(g, iq, _) := p in
    match acc with
    | Ok out c => match lg_random g (fun k => lower (iq + k)%nat) (fun k => upper (iq + k)%nat) (shift c r) with
                  | Some (q, c') => Ok (writeSeg iq (lg_nq g) q out) (c + c')%nat
                  | None => Throw out
                  end
    | e => e
    end) (modelPieces m) (Ok out 0%nat).
