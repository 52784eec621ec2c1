(* Joint models: what calc computes for every joint type of the default joint collection.
   A configuration or velocity is given here as the joint's own segment, [fun k => q[idx_q + k]]
   (joint-model-base.hpp 322-332 jointConfigSelector; the index arithmetic is in Model.v). *)
Require Import Reals Lra Lia List.
From Verif Require Import Vec3 Spatial.
Import ListNotations.
Local Open Scope R_scope.

(* Joints that are neither mimic nor composite: multibody/joint/joint-collection.hpp 28-140.
   [axis] is the template parameter 0, 1 or 2. *)
Inductive Joint1 :=
| JRevolute (axis : nat) | JRevoluteUnaligned (a : V3)
| JRUB (axis : nat) | JRUBUnaligned (a : V3)
| JPrismatic (axis : nat) | JPrismaticUnaligned (a : V3)
| JHelical (axis : nat) (pitch : R) | JHelicalUnaligned (a : V3) (pitch : R)
| JFreeFlyer | JSpherical | JSphericalZYX | JPlanar | JTranslation
| JUniversal (a1 a2 : V3).

(* JMimic: joint-mimic.hpp 369-885.  JComposite: joint-composite.hpp 140-460. *)
Inductive Joint :=
| JSimple (j : Joint1)
| JMimic (j : Joint1) (scaling offset : R)
| JComposite (l : list (SE3 * Joint)).

(* NQ/NV enums: joint-revolute.hpp 661-662, joint-revolute-unaligned.hpp 505-506, joint-revolute-unbounded.hpp 25-26,
   joint-revolute-unbounded-unaligned.hpp 26-27, joint-free-flyer.hpp 170-171, joint-spherical.hpp 384-385,
   joint-spherical-ZYX.hpp 281-282, joint-planar.hpp 473-474, joint-translation.hpp 481-482, joint-universal.hpp 315-316,
   joint-prismatic.hpp 572-573, joint-prismatic-unaligned.hpp 480-481, joint-helical.hpp 737-738,
   joint-helical-unaligned.hpp 526-527 *)
Definition nq1 (j : Joint1) : nat :=
  match j with
  | JRUB _ | JRUBUnaligned _ | JUniversal _ _ => 2
  | JFreeFlyer => 7
  | JSpherical | JPlanar => 4
  | JSphericalZYX | JTranslation => 3
  | _ => 1
  end%nat.
Definition nv1 (j : Joint1) : nat :=
  match j with
  | JUniversal _ _ => 2
  | JFreeFlyer => 6
  | JSpherical | JPlanar | JSphericalZYX | JTranslation => 3
  | _ => 1
  end%nat.

(* joint-mimic.hpp 627-639 (nq_impl = nv_impl = 0, nvExtended = that of the wrapped joint);
   joint-composite.hpp 285-299 (sums) *)
Fixpoint jnq (j : Joint) : nat :=
  match j with
  | JSimple j => nq1 j
  | JMimic _ _ _ => 0
  | JComposite l => (fix go l := match l with [] => 0 | (_, j) :: r => jnq j + go r end) l
  end%nat.
Fixpoint jnv (j : Joint) : nat :=
  match j with
  | JSimple j => nv1 j
  | JMimic _ _ _ => 0
  | JComposite l => (fix go l := match l with [] => 0 | (_, j) :: r => jnv j + go r end) l
  end%nat.
Fixpoint jnvE (j : Joint) : nat :=
  match j with
  | JSimple j => nv1 j
  | JMimic j _ _ => nv1 j
  | JComposite l => (fix go l := match l with [] => 0 | (_, j) :: r => jnvE j + go r end) l
  end%nat.

(* math/rotation.hpp 25-57 toRotationMatrix(axis, cos, sin): coefficient by coefficient *)
Definition toRotationMatrix (a : V3) (c s : R) : M3 :=
  let sa := v3scale s a in
  let c1 := v3scale (1 - c) a in
  let t01 := vx c1 * vy a in let t02 := vx c1 * vz a in let t12 := vy c1 * vz a in
  mkM3 (vx c1 * vx a + c) (t01 - vz sa) (t02 + vy sa)
       (t01 + vz sa) (vy c1 * vy a + c) (t12 - vx sa)
       (t02 - vy sa) (t12 + vx sa) (vz c1 * vz a + c).

(* joint-revolute.hpp 202-233 TransformRevolute::_setRotation (applied to an identity) *)
Definition axisRotation (axis : nat) (s c : R) : M3 :=
  match axis with
  | 0%nat => mkM3 1 0 0  0 c (- s)  0 s c
  | 1%nat => mkM3 c 0 s  0 1 0  (- s) 0 c
  | _ => mkM3 c (- s) 0  s c 0  0 0 1
  end.

(* Eigen::QuaternionBase::toRotationMatrix, called as quat.matrix() in joint-free-flyer.hpp 339 and
   joint-spherical.hpp 529; coefficients stored x, y, z, w *)
Definition quatMatrix (x y z w : R) : M3 :=
  let tx := 2 * x in let ty := 2 * y in let tz := 2 * z in
  let twx := tx * w in let twy := ty * w in let twz := tz * w in
  let txx := tx * x in let txy := ty * x in let txz := tz * x in
  let tyy := ty * y in let tyz := tz * y in let tzz := tz * z in
  mkM3 (1 - (tyy + tzz)) (txy - twz) (txz + twy)
       (txy + twz) (1 - (txx + tzz)) (tyz - twx)
       (txz - twy) (tyz + twx) (1 - (txx + tyy)).

(* joint-spherical-ZYX.hpp 415-416 *)
Definition zyxRotation (s0 c0 s1 c1 s2 c2 : R) : M3 :=
  mkM3 (c0 * c1) (c0 * s1 * s2 - s0 * c2) (c0 * s1 * c2 + s0 * s2)
       (s0 * c1) (s0 * s1 * s2 + c0 * c2) (s0 * s1 * c2 - c0 * s2)
       (- s1) (c1 * s2) (c1 * c2).

(* data.M after calc(data, q):
   joint-revolute.hpp 793-799; joint-revolute-unaligned.hpp 668-673; joint-revolute-unbounded.hpp 154-162;
   joint-revolute-unbounded-unaligned.hpp 192-200; joint-prismatic.hpp 700-704 (TransformPrismatic 209-259);
   joint-prismatic-unaligned.hpp 643-647; joint-helical.hpp 874-881; joint-helical-unaligned.hpp 701-709;
   joint-free-flyer.hpp 333-353; joint-spherical.hpp 525-552; joint-spherical-ZYX.hpp 404-420;
   joint-planar.hpp 601-609 (the untouched coefficients of M keep the identity they were constructed with, 540);
   joint-translation.hpp 602-606; joint-universal.hpp 478-489 *)
Definition calcM1 (j : Joint1) (q : nat -> R) : SE3 :=
  match j with
  | JRevolute ax => mkSE3 (axisRotation ax (sin (q 0%nat)) (cos (q 0%nat))) v3zero
  | JRevoluteUnaligned a => mkSE3 (toRotationMatrix a (cos (q 0%nat)) (sin (q 0%nat))) v3zero
  | JRUB ax => mkSE3 (axisRotation ax (q 1%nat) (q 0%nat)) v3zero
  | JRUBUnaligned a => mkSE3 (toRotationMatrix a (q 0%nat) (q 1%nat)) v3zero
  | JPrismatic ax => mkSE3 m3id (v3scale (q 0%nat) (unitAxis ax))
  | JPrismaticUnaligned a => mkSE3 m3id (v3scale (q 0%nat) a)
  | JHelical ax h => mkSE3 (axisRotation ax (sin (q 0%nat)) (cos (q 0%nat))) (v3scale (q 0%nat * h) (unitAxis ax))
  | JHelicalUnaligned a h => mkSE3 (toRotationMatrix a (cos (q 0%nat)) (sin (q 0%nat))) (v3scale h (v3scale (q 0%nat) a))
  | JFreeFlyer => mkSE3 (quatMatrix (q 3%nat) (q 4%nat) (q 5%nat) (q 6%nat)) (mkV3 (q 0%nat) (q 1%nat) (q 2%nat))
  | JSpherical => mkSE3 (quatMatrix (q 0%nat) (q 1%nat) (q 2%nat) (q 3%nat)) v3zero
  | JSphericalZYX =>
      mkSE3 (zyxRotation (sin (q 0%nat)) (cos (q 0%nat)) (sin (q 1%nat)) (cos (q 1%nat)) (sin (q 2%nat)) (cos (q 2%nat))) v3zero
  | JPlanar => mkSE3 (axisRotation 2 (q 3%nat) (q 2%nat)) (mkV3 (q 0%nat) (q 1%nat) 0)
  | JTranslation => mkSE3 m3id (mkV3 (q 0%nat) (q 1%nat) (q 2%nat))
  | JUniversal a1 a2 =>
      mkSE3 (m3mul (toRotationMatrix a1 (cos (q 0%nat)) (sin (q 0%nat))) (toRotationMatrix a2 (cos (q 1%nat)) (sin (q 1%nat)))) v3zero
  end.

Definition linCol (u : V3) : V6 := mkV6 u v3zero.
Definition angCol (u : V3) : V6 := mkV6 v3zero u.

(* data.S as a 6 x nv matrix, column by column (matrix_impl of every motion subspace):
   joint-revolute.hpp 517-523; joint-revolute-unaligned.hpp 389-396; joint-prismatic.hpp 438-444;
   joint-prismatic-unaligned.hpp 371-378; joint-helical.hpp 561-569 with S.h() = pitch set in calc (880);
   joint-helical-unaligned.hpp 389-397 with 707-708; joint-free-flyer.hpp 105-108 (identity 6x6);
   joint-spherical.hpp 280-287; joint-spherical-ZYX.hpp 131-138 with 418-419; joint-planar.hpp 324-332;
   joint-translation.hpp 384-390; joint-universal.hpp 191-198 with 491-499 *)
Definition calcS1 (j : Joint1) (q : nat -> R) : list V6 :=
  match j with
  | JRevolute ax | JRUB ax => [angCol (unitAxis ax)]
  | JRevoluteUnaligned a | JRUBUnaligned a => [angCol a]
  | JPrismatic ax => [linCol (unitAxis ax)]
  | JPrismaticUnaligned a => [linCol a]
  | JHelical ax h => [mkV6 (v3scale h (unitAxis ax)) (unitAxis ax)]
  | JHelicalUnaligned a h => [mkV6 (v3scale h a) a]
  | JFreeFlyer => [linCol (unitAxis 0); linCol (unitAxis 1); linCol (unitAxis 2);
                   angCol (unitAxis 0); angCol (unitAxis 1); angCol (unitAxis 2)]
  | JSpherical => [angCol (unitAxis 0); angCol (unitAxis 1); angCol (unitAxis 2)]
  | JSphericalZYX =>
      let c1 := cos (q 1%nat) in let s1 := sin (q 1%nat) in let c2 := cos (q 2%nat) in let s2 := sin (q 2%nat) in
      [angCol (mkV3 (- s1) (c1 * s2) (c1 * c2)); angCol (mkV3 0 c2 (- s2)); angCol (mkV3 1 0 0)]
  | JPlanar => [linCol (unitAxis 0); linCol (unitAxis 1); angCol (unitAxis 2)]
  | JTranslation => [linCol (unitAxis 0); linCol (unitAxis 1); linCol (unitAxis 2)]
  | JUniversal a1 a2 =>
      let r2 := toRotationMatrix a2 (cos (q 1%nat)) (sin (q 1%nat)) in
      [angCol (mkV3 (m00 r2 * vx a1 + m10 r2 * vy a1 + m20 r2 * vz a1)
                    (m01 r2 * vx a1 + m11 r2 * vy a1 + m21 r2 * vz a1)
                    (m02 r2 * vx a1 + m12 r2 * vy a1 + m22 r2 * vz a1));
       angCol a2]
  end.

(* data.v after calc(data, q, v):
   joint-revolute.hpp 818-819; joint-revolute-unaligned.hpp 691; joint-prismatic.hpp 723-724;
   joint-prismatic-unaligned.hpp 659-668; joint-helical.hpp 901-903 (linearRate and angularRate along the axis);
   joint-helical-unaligned.hpp 728-730; joint-free-flyer.hpp 372-373; joint-spherical.hpp 570-571;
   joint-spherical-ZYX.hpp 461; joint-planar.hpp 636-638; joint-translation.hpp 625-626; joint-universal.hpp 554 *)
Definition calcv1 (j : Joint1) (q v : nat -> R) : V6 :=
  match j with
  | JRevolute ax | JRUB ax => angCol (v3scale (v 0%nat) (unitAxis ax))
  | JRevoluteUnaligned a | JRUBUnaligned a => angCol (v3scale (v 0%nat) a)
  | JPrismatic ax => linCol (v3scale (v 0%nat) (unitAxis ax))
  | JPrismaticUnaligned a => linCol (v3scale (v 0%nat) a)
  | JHelical ax h => mkV6 (v3scale (v 0%nat * h) (unitAxis ax)) (v3scale (v 0%nat) (unitAxis ax))
  | JHelicalUnaligned a h => mkV6 (v3scale (v 0%nat * h) a) (v3scale (v 0%nat) a)
  | JFreeFlyer => mkV6 (mkV3 (v 0%nat) (v 1%nat) (v 2%nat)) (mkV3 (v 3%nat) (v 4%nat) (v 5%nat))
  | JSpherical => angCol (mkV3 (v 0%nat) (v 1%nat) (v 2%nat))
  | JSphericalZYX =>
      let c1 := cos (q 1%nat) in let s1 := sin (q 1%nat) in let c2 := cos (q 2%nat) in let s2 := sin (q 2%nat) in
      angCol (m3vec (mkM3 (- s1) 0 1 (c1 * s2) c2 0 (c1 * c2) (- s2) 0) (mkV3 (v 0%nat) (v 1%nat) (v 2%nat)))
  | JPlanar => mkV6 (mkV3 (v 0%nat) (v 1%nat) 0) (mkV3 0 0 (v 2%nat))
  | JTranslation => linCol (mkV3 (v 0%nat) (v 1%nat) (v 2%nat))
  | JUniversal a1 a2 =>
      let r2 := toRotationMatrix a2 (cos (q 1%nat)) (sin (q 1%nat)) in
      angCol (mkV3
        ((m00 r2 * vx a1 + m10 r2 * vy a1 + m20 r2 * vz a1) * v 0%nat + vx a2 * v 1%nat)
        ((m01 r2 * vx a1 + m11 r2 * vy a1 + m21 r2 * vz a1) * v 0%nat + vy a2 * v 1%nat)
        ((m02 r2 * vx a1 + m12 r2 * vy a1 + m22 r2 * vz a1) * v 0%nat + vz a2 * v 1%nat))
  end.

(* data.c after calc(data, q, v): zero (MotionZero bias type) except
   joint-spherical-ZYX.hpp 463-469 and joint-universal.hpp 556-570 *)
Definition calcc1 (j : Joint1) (q v : nat -> R) : V6 :=
  match j with
  | JSphericalZYX =>
      let c1 := cos (q 1%nat) in let s1 := sin (q 1%nat) in let c2 := cos (q 2%nat) in let s2 := sin (q 2%nat) in
      angCol (mkV3 (- c1 * v 0%nat * v 1%nat)
                   (- s1 * s2 * v 0%nat * v 1%nat + c1 * c2 * v 0%nat * v 2%nat - s2 * v 1%nat * v 2%nat)
                   (- s1 * c2 * v 0%nat * v 1%nat - c1 * s2 * v 0%nat * v 2%nat - c2 * v 1%nat * v 2%nat))
  | JUniversal a1 a2 =>
      let c1 := cos (q 1%nat) in let s1 := sin (q 1%nat) in
      let t0 := (- s1 + vx a2 * vx a2 * s1) * vx a1 + (vx a2 * vy a2 * s1 + vz a2 * c1) * vy a1
                + (vx a2 * vz a2 * s1 - vy a2 * c1) * vz a1 in
      let t1 := (vx a2 * vy a2 * s1 - vz a2 * c1) * vx a1 + (- s1 + vy a2 * vy a2 * s1) * vy a1
                + (vy a2 * vz a2 * s1 + vx a2 * c1) * vz a1 in
      let t2 := (vz a2 * vx a2 * s1 + vy a2 * c1) * vx a1 + (vy a2 * vz a2 * s1 - vx a2 * c1) * vy a1
                + (- s1 + vz a2 * vz a2 * s1) * vz a1 in
      angCol (mkV3 (t0 * v 1%nat * v 0%nat) (t1 * v 1%nat * v 0%nat) (t2 * v 1%nat * v 0%nat))
  | _ => v6zero
  end.

(* std::atan2 on the reals (C standard 7.12.4.4; signed zeros are not modelled) *)
Definition atan2 (y x : R) : R :=
  if Rlt_dec 0 x then atan (y / x)
  else if Rlt_dec x 0 then (if Rle_dec 0 y then atan (y / x) + PI else atan (y / x) - PI)
  else if Rlt_dec 0 y then PI / 2
  else if Rlt_dec y 0 then - (PI / 2) else 0.

(* configVectorAffineTransform: joint-common-operations.hpp 52-88 and its per-joint specialisations
   (joint-revolute-unbounded.hpp, joint-revolute-unbounded-unaligned.hpp use the unbounded version).
   The other joints that can be wrapped (see [mimicable]) use the linear one. *)
Definition mimicConfig (j : Joint1) (scaling offset : R) (q : nat -> R) : nat -> R :=
  match j with
  | JRUB _ | JRUBUnaligned _ =>
      let theta := scaling * atan2 (q 1%nat) (q 0%nat) + offset in
      fun k => match k with 0%nat => cos theta | _ => sin theta end
  | _ => fun k => scaling * q k + offset
  end.

(* S of the data returned by createData(): joint-revolute.hpp 772-775, joint-revolute-unaligned.hpp 646-649,
   joint-revolute-unbounded*.hpp 138-141 / 170-173, joint-prismatic.hpp 684-687, joint-prismatic-unaligned.hpp 621-624,
   joint-helical.hpp 848-851 with 802-812 (pitch 0), joint-helical-unaligned.hpp 688-691 with 592-602 (axis 0, pitch 0),
   joint-spherical-ZYX.hpp 388 with 350, joint-universal.hpp 455 with 384 *)
Definition createS1 (j : Joint1) : list V6 :=
  match j with
  | JHelical ax _ => [mkV6 (v3scale 0 (unitAxis ax)) (unitAxis ax)]
  | JHelicalUnaligned _ _ => [mkV6 (v3scale 0 v3zero) v3zero]
  | JSphericalZYX => [v6zero; v6zero; v6zero]
  | JUniversal _ _ => [v6zero; v6zero]
  | _ => calcS1 j (fun _ => 0)
  end.

(* joint-mimic.hpp: S of a mimic joint is ScaledJointMotionSubspace(createData().S(), scaling), fixed when its data
   is created (390-398) and never refreshed by calc (694-716) *)
Definition mimicS (j : Joint1) (scaling : R) : list V6 := map (v6scale scaling) (createS1 j).

(* The part of JointData the algorithms read. *)
Record JData := mkJData { jM : SE3; jS : list V6; jv : V6; jc : V6 }.

Definition shift (n : nat) (q : nat -> R) : nat -> R := fun k => q (n + k)%nat.

(* calc(data, q, v).  Composite: joint-composite.hxx 105-141 (steps run from the last joint to the first);
   the function returns iMlast[i], S, v and c as they stand when joint i has been processed.
   The assert on an empty composite (line 61) is compiled out; data.iMlast.front() is then undefined and
   is modelled by the identity. *)
Fixpoint jcalc (j : Joint) (q v : nat -> R) : JData :=
  match j with
  | JSimple j => mkJData (calcM1 j q) (calcS1 j q) (calcv1 j q v) (calcc1 j q v)
  | JMimic j s o =>
      let q' := mimicConfig j s o q in
      let v' := fun k => s * v k in
      mkJData (calcM1 j q') (mimicS j s) (calcv1 j q' v') (calcc1 j q' v')
  | JComposite l =>
      (fix go (l : list (SE3 * Joint)) (q v : nat -> R) : JData :=
         match l with
         | [] => mkJData se3_Identity [] v6zero v6zero
         | (P, j) :: r =>
             let d := jcalc j q v in
             let pjMi := se3_mul P (jM d) in
             match r with
             | [] => mkJData pjMi (jS d) (jv d) (jc d)
             | _ :: _ =>
                 let d' := go r (shift (jnq j) q) (shift (jnv j) v) in
                 let vtmp := motion_actInv (jM d') (jv d) in
                 let vnew := v6add (jv d') vtmp in
                 mkJData (se3_mul pjMi (jM d'))
                         (map (motion_actInv (jM d')) (jS d) ++ jS d')
                         vnew
                         (v6add (v6sub (jc d') (motion_cross vnew vtmp)) (motion_actInv (jM d') (jc d)))
             end
         end) l q v
  end.

Definition calcComposite : list (SE3 * Joint) -> (nat -> R) -> (nat -> R) -> JData :=
  fix go (l : list (SE3 * Joint)) (q v : nat -> R) : JData :=
         match l with
         | [] => mkJData se3_Identity [] v6zero v6zero
         | (P, j) :: r =>
             let d := jcalc j q v in
             let pjMi := se3_mul P (jM d) in
             match r with
             | [] => mkJData pjMi (jS d) (jv d) (jc d)
             | _ :: _ =>
                 let d' := go r (shift (jnq j) q) (shift (jnv j) v) in
                 let vtmp := motion_actInv (jM d') (jv d) in
                 let vnew := v6add (jv d') vtmp in
                 mkJData (se3_mul pjMi (jM d'))
                         (map (motion_actInv (jM d')) (jS d) ++ jS d')
                         vnew
                         (v6add (v6sub (jc d') (motion_cross vnew vtmp)) (motion_actInv (jM d') (jc d)))
             end
         end.

(* calc(data, q): M and S as above; v and c keep the values they had *)
Definition jcalc0 (j : Joint) (d : JData) (q : nat -> R) : JData :=
  let d' := jcalc j q (fun _ => 0) in mkJData (jM d') (jS d') (jv d) (jc d).

(* S * x and S^T * f for the 6 x n matrix S *)
Fixpoint Smul (S : list V6) (x : nat -> R) : V6 :=
  match S with [] => v6zero | c :: r => v6add (v6scale (x 0%nat) c) (Smul r (shift 1 x)) end.
Definition StMul (S : list V6) (f : V6) : nat -> R := fun k => v6dot (nth k S v6zero) f.
