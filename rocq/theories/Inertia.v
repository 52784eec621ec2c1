(** Symmetric 3x3 matrices and spatial inertias.
    Model of include/pinocchio/spatial/symmetric3.hpp and spatial/inertia.hpp *)
From Coq Require Import Reals Lra Lia Psatz.
From Verif Require Import Vec3 Spatial.
Open Scope R_scope.

(** ** Symmetric3 *)

(** symmetric3.hpp m_data: six coefficients stored in the order xx xy yy xz yz zz. *)
Record Sym3 := mkSym3 { s0 : R; s1 : R; s2 : R; s3 : R; s4 : R; s5 : R }.

(** symmetric3.hpp 43-52: constructor from a 3x3 matrix reads the lower triangle
    (the symmetry assert is compiled out in release builds). *)
Definition sym3_ofMatrix (A : M3) : Sym3 := mkSym3 (m00 A) (m10 A) (m11 A) (m20 A) (m21 A) (m22 A).
(** symmetric3.hpp 304-317 *)
Definition sym3_matrix (S : Sym3) : M3 :=
  mkM3 (s0 S) (s1 S) (s3 S) (s1 S) (s2 S) (s4 S) (s3 S) (s4 S) (s5 S).
(** symmetric3.hpp 92-95 *)
Definition sym3_Zero : Sym3 := mkSym3 0 0 0 0 0 0.
(** symmetric3.hpp 117-120 *)
Definition sym3_Identity : Sym3 := mkSym3 1 0 1 0 0 1.
(** symmetric3.hpp 126-133: only the three diagonal entries are written. *)
Definition sym3_setDiagonal (S : Sym3) (d : V3) : Sym3 := mkSym3 (vx d) (s1 S) (vy d) (s3 S) (s4 S) (vz d).
(** symmetric3.hpp 461-487 *)
Definition sym3_add (A B : Sym3) : Sym3 :=
  mkSym3 (s0 A + s0 B) (s1 A + s1 B) (s2 A + s2 B) (s3 A + s3 B) (s4 A + s4 B) (s5 A + s5 B).
Definition sym3_sub (A B : Sym3) : Sym3 :=
  mkSym3 (s0 A - s0 B) (s1 A - s1 B) (s2 A - s2 B) (s3 A - s3 B) (s4 A - s4 B) (s5 A - s5 B).
Definition sym3_scale (k : R) (A : Sym3) : Sym3 :=
  mkSym3 (k * s0 A) (k * s1 A) (k * s2 A) (k * s3 A) (k * s4 A) (k * s5 A).
(** symmetric3.hpp 489-511: rhsMult and operator*(v) *)
Definition sym3_vec (S : Sym3) (v : V3) : V3 :=
  mkV3 (s0 S * vx v + s1 S * vy v + s3 S * vz v)
       (s1 S * vx v + s2 S * vy v + s4 S * vz v)
       (s3 S * vx v + s4 S * vy v + s5 S * vz v).
(** symmetric3.hpp 163-179: inverse(res), cofactors divided by the determinant *)
Definition sym3_inverse (S : Sym3) : M3 :=
  let a11 := s0 S in let a21 := s1 S in let a22 := s2 S in
  let a31 := s3 S in let a32 := s4 S in let a33 := s5 S in
  let r00 := a33 * a22 - a32 * a32 in
  let r01 := - (a33 * a21 - a32 * a31) in
  let r02 := a32 * a21 - a22 * a31 in
  let r11 := a33 * a11 - a31 * a31 in
  let r12 := - (a32 * a11 - a21 * a31) in
  let r22 := a22 * a11 - a21 * a21 in
  let det := a11 * r00 + a21 * r01 + a31 * r02 in
  mkM3 (r00 / det) (r01 / det) (r02 / det)
       (r01 / det) (r11 / det) (r12 / det)
       (r02 / det) (r12 / det) (r22 / det).
(** symmetric3.hpp 195-199: SkewSquare conversion *)
Definition sym3_SkewSquare (v : V3) : Sym3 :=
  let x := vx v in let y := vy v in let z := vz v in
  mkSym3 (- y * y - z * z) (x * y) (- x * x - z * z) (x * z) (y * z) (- x * x - y * y).
(** symmetric3.hpp 202-220: operator-(SkewSquare) and operator-=(SkewSquare) *)
Definition sym3_subSkewSquare (S : Sym3) (v : V3) : Sym3 :=
  let x := vx v in let y := vy v in let z := vz v in
  mkSym3 (s0 S + y * y + z * z) (s1 S - x * y) (s2 S + x * x + z * z)
         (s3 S - x * z) (s4 S - y * z) (s5 S + x * x + y * y).
(** symmetric3.hpp 238-244: AlphaSkewSquare conversion *)
Definition sym3_AlphaSkewSquare (m : R) (v : V3) : Sym3 :=
  let x := vx v in let y := vy v in let z := vz v in
  mkSym3 (- m * (y * y + z * z)) (m * x * y) (- m * (x * x + z * z))
         (m * x * z) (m * y * z) (- m * (x * x + y * y)).
(** symmetric3.hpp 252-271: operator-(AlphaSkewSquare) and operator-= *)
Definition sym3_subAlphaSkewSquare (S : Sym3) (m : R) (v : V3) : Sym3 :=
  let x := vx v in let y := vy v in let z := vz v in
  mkSym3 (s0 S + m * (y * y + z * z)) (s1 S - m * x * y) (s2 S + m * (x * x + z * z))
         (s3 S - m * x * z) (s4 S - m * y * z) (s5 S + m * (x * x + y * y)).
(** symmetric3.hpp 323-338 *)
Definition sym3_vtiv (S : Sym3) (v : V3) : R :=
  let x := vx v in let y := vy v in let z := vz v in
  s0 S * (x * x) + s2 S * (y * y) + s5 S * (z * z)
  + 2 * (s1 S * (x * y) + s3 S * (x * z) + s4 S * (y * z)).
(** symmetric3.hpp 350-400 *)
Definition sym3_vxs (v : V3) (S : Sym3) : M3 :=
  let a := s0 S in let b := s1 S in let c := s2 S in let d := s3 S in let e := s4 S in let f := s5 S in
  let v0 := vx v in let v1 := vy v in let v2 := vz v in
  mkM3 (d * v1 - b * v2) (e * v1 - c * v2) (f * v1 - e * v2)
       (a * v2 - d * v0) (b * v2 - e * v0) (d * v2 - f * v0)
       (b * v0 - a * v1) (c * v0 - b * v1) (e * v0 - d * v1).
(** symmetric3.hpp 411-459 *)
Definition sym3_svx (v : V3) (S : Sym3) : M3 :=
  let a := s0 S in let b := s1 S in let c := s2 S in let d := s3 S in let e := s4 S in let f := s5 S in
  let v0 := vx v in let v1 := vy v in let v2 := vz v in
  mkM3 (b * v2 - d * v1) (d * v0 - a * v2) (a * v1 - b * v0)
       (c * v2 - e * v1) (e * v0 - b * v2) (b * v1 - c * v0)
       (e * v2 - f * v1) (f * v0 - d * v2) (d * v1 - e * v0).
(** symmetric3.hpp 530-546: difference and sum with a (symmetric) dense matrix *)
Definition sym3_subM (S : Sym3) (A : M3) : Sym3 :=
  mkSym3 (s0 S - m00 A) (s1 S - m10 A) (s2 S - m11 A) (s3 S - m20 A) (s4 S - m21 A) (s5 S - m22 A).
Definition sym3_addM (S : Sym3) (A : M3) : Sym3 :=
  mkSym3 (s0 S + m00 A) (s1 S + m10 A) (s2 S + m11 A) (s3 S + m20 A) (s4 S + m21 A) (s5 S + m22 A).
(** symmetric3.hpp 525-528: operator()(i,j), indexes 0..2 *)
Definition sym3_data (S : Sym3) (k : nat) : R :=
  match k with 0%nat => s0 S | 1%nat => s1 S | 2%nat => s2 S | 3%nat => s3 S | 4%nat => s4 S | _ => s5 S end.
Definition sym3_at (S : Sym3) (i j : nat) : R :=
  if andb (negb (Nat.eqb i 2)) (negb (Nat.eqb j 2)) then sym3_data S (i + j) else sym3_data S (i + j + 1).
(** symmetric3.hpp 552-601: rotate(R), with L = decomposeltI() (552-558) and
    Y = R.block<2,3>(1,0) * L *)
Definition sym3_rotate (S : Sym3) (Rm : M3) : Sym3 :=
  let L00 := s0 S - s5 S in let L01 := s1 S in
  let L10 := s1 S in let L11 := s2 S - s5 S in
  let L20 := 2 * s3 S in let L21 := s4 S + s4 S in
  let Y00 := m10 Rm * L00 + m11 Rm * L10 + m12 Rm * L20 in
  let Y01 := m10 Rm * L01 + m11 Rm * L11 + m12 Rm * L21 in
  let Y10 := m20 Rm * L00 + m21 Rm * L10 + m22 Rm * L20 in
  let Y11 := m20 Rm * L01 + m21 Rm * L11 + m22 Rm * L21 in
  let d1 := Y00 * m00 Rm + Y01 * m01 Rm in
  let d2 := Y00 * m10 Rm + Y01 * m11 Rm in
  let d3 := Y10 * m00 Rm + Y11 * m01 Rm in
  let d4 := Y10 * m10 Rm + Y11 * m11 Rm in
  let d5 := Y10 * m20 Rm + Y11 * m21 Rm in
  let r0 := - m00 Rm * s4 S + m01 Rm * s3 S in
  let r1 := - m10 Rm * s4 S + m11 Rm * s3 S in
  let r2 := - m20 Rm * s4 S + m21 Rm * s3 S in
  let d0 := L00 + L11 - d2 - d5 in
  mkSym3 (d0 + s5 S) (d1 + r2) (d2 + s5 S) (d3 - r1) (d4 + r0) (d5 + s5 S).

Lemma sym3_ext A B : s0 A = s0 B -> s1 A = s1 B -> s2 A = s2 B -> s3 A = s3 B -> s4 A = s4 B -> s5 A = s5 B -> A = B.
Proof. destruct A, B; cbn; congruence. Qed.

(** ** Inertia: mass, centre of mass (lever), rotational inertia about the centre of mass.
    inertia.hpp 926-931 *)
Record Inertia := mkInertia { mass : R; lever : V3; inertia : Sym3 }.

(** inertia.hpp 337-340, 349-352 *)
Definition inertia_Zero : Inertia := mkInertia 0 v3zero sym3_Zero.
Definition inertia_Identity : Inertia := mkInertia 1 v3zero sym3_Identity.
(** inertia.hpp 479-490: matrix() *)
Definition inertia_matrix (Y : Inertia) : M6 :=
  let m := mass Y in
  let AL := alphaSkew m (lever Y) in
  mkM6 (mkM3 m 0 0 0 m 0 0 0 m) (m3opp AL) AL
       (sym3_matrix (sym3_subAlphaSkewSquare (inertia Y) m (lever Y))).
(** inertia.hpp 292-306: constructor from a 6x6 matrix *)
Definition inertia_ofMatrix (A : M6) : Inertia :=
  let m := m00 (mLL A) in
  let mc := mAL A in
  let c := v3scale (/ m) (unSkew mc) in
  let I3 := m3add (m3scale (/ m) (m3mul mc mc)) (mAA A) in
  mkInertia m c (sym3_ofMatrix I3).
(** inertia.hpp 499-525: inverse() *)
Definition inertia_inverse (Y : Inertia) : M6 :=
  let AA := sym3_inverse (inertia Y) in
  let c := lever Y in
  let LA := m3ofcols (v3opp (v3cross (m3col AA 0) c)) (v3opp (v3cross (m3col AA 1) c)) (v3opp (v3cross (m3col AA 2) c)) in
  let col k := m3col LA k in
  let LL := m3ofcols (v3sub (v3scale (vy c) (col 2%nat)) (v3scale (vz c) (col 1%nat)))
                     (v3sub (v3scale (vz c) (col 0%nat)) (v3scale (vx c) (col 2%nat)))
                     (v3sub (v3scale (vx c) (col 1%nat)) (v3scale (vy c) (col 0%nat))) in
  let mi := 1 / mass Y in
  mkM6 (m3add LL (mkM3 mi 0 0 0 mi 0 0 0 mi)) LA (m3tr LA) AA.
(** inertia.hpp 727-734: __mult__(v, f) *)
Definition inertia_mul (Y : Inertia) (v : Motion) : Force :=
  let l := v3scale (mass Y) (v3sub (lin v) (v3cross (lever Y) (ang v))) in
  mkV6 l (v3add (sym3_vec (inertia Y) (ang v)) (v3cross (lever Y) l)).
(** inertia.hpp 736-746 *)
Definition inertia_vtiv (Y : Inertia) (v : Motion) : R :=
  let cxw := v3cross (lever Y) (ang v) in
  let res := mass Y * (v3norm2 (lin v) - 2 * v3dot (lin v) cxw) in
  let mcxcxw := v3scale (- mass Y) (v3cross (lever Y) cxw) in
  res + v3dot (ang v) mcxcxw + sym3_vtiv (inertia Y) (ang v).
(** inertia.hpp 748-775 *)
Definition inertia_variation (Y : Inertia) (v : Motion) : M6 :=
  let mvl := v3scale (mass Y) (lin v) in
  let mva := v3scale (mass Y) (ang v) in
  let LA := m3add (m3sub (m3opp (skew mvl)) (skewSquare mva (lever Y))) (skewSquare (lever Y) mva) in
  let AA0 := m3sub (m3opp (skewSquare mvl (lever Y))) (skewSquare (lever Y) mvl) in
  let T := sym3_matrix (sym3_subAlphaSkewSquare (inertia Y) (mass Y) (lever Y)) in
  let AA1 := m3sub AA0 (m3mul T (skew (ang v))) in
  let AA2 := m3add AA1 (crossM (ang v) T) in
  mkM6 m3zero LA (m3tr LA) AA2.
(** inertia.hpp 777-809 *)
Definition inertia_vxi (v : Motion) (Y : Inertia) : M6 :=
  let LL := alphaSkew (mass Y) (ang v) in
  let mc := v3scale (mass Y) (lever Y) in
  let LA := skewSquare (v3opp (ang v)) mc in
  let AL := m3sub (alphaSkew (mass Y) (lin v)) LA in
  let AA0 := skewSquare (v3opp (lin v)) mc in
  let mcxcx := sym3_AlphaSkewSquare (mass Y) (lever Y) in
  let AA1 := m3add AA0 (sym3_vxs (ang v) (inertia Y)) in
  let AA2 := m3sub AA1 (sym3_vxs (ang v) mcxcx) in
  mkM6 LL LA AL AA2.
(** inertia.hpp 811-841 *)
Definition inertia_ivx (v : Motion) (Y : Inertia) : M6 :=
  let LL := alphaSkew (mass Y) (ang v) in
  let mc := v3scale (mass Y) (lever Y) in
  let AL := skewSquare mc (ang v) in
  let LA0 := alphaSkew (mass Y) (lin v) in
  let AA0 := crossM (v3opp (lever Y)) AL in
  let AA1 := m3add AA0 (sym3_svx (ang v) (inertia Y)) in
  let AA2 := m3add AA1 (m3ofcols (v3cross (lever Y) (m3col LA0 0))
                                 (v3cross (lever Y) (m3col LA0 1))
                                 (v3cross (lever Y) (m3col LA0 2))) in
  let LA := m3sub LA0 AL in
  mkM6 LL LA AL AA2.
(** inertia.hpp 870-879 *)
Definition inertia_act (M : SE3) (Y : Inertia) : Inertia :=
  mkInertia (mass Y) (v3add (trans M) (m3vec (rot M) (lever Y))) (sym3_rotate (inertia Y) (rot M)).
(** inertia.hpp 881-888 *)
Definition inertia_actInv (M : SE3) (Y : Inertia) : Inertia :=
  mkInertia (mass Y) (m3vec (m3tr (rot M)) (v3sub (lever Y) (trans M))) (sym3_rotate (inertia Y) (m3tr (rot M))).
(** inertia.hpp 890-899 *)
Definition inertia_vxiv (Y : Inertia) (v : Motion) : Force :=
  let mcxw := v3scale (mass Y) (v3cross (lever Y) (ang v)) in
  let mv_mcxw := v3sub (v3scale (mass Y) (lin v)) mcxw in
  mkV6 (v3cross (ang v) mv_mcxw)
       (v3sub (v3cross (ang v) (v3add (v3cross (lever Y) mv_mcxw) (sym3_vec (inertia Y) (ang v))))
              (v3cross (lin v) mcxw)).
(** inertia.hpp 640-656: __plus__; [eps] is NumTraits<Scalar>::epsilon() *)
Definition inertia_plus (eps : R) (Ya Yb : Inertia) : Inertia :=
  let mab := mass Ya + mass Yb in
  let mab_inv := 1 / Rmax mab eps in
  let AB := v3sub (lever Ya) (lever Yb) in
  mkInertia mab
    (v3scale mab_inv (v3add (v3scale (mass Ya) (lever Ya)) (v3scale (mass Yb) (lever Yb))))
    (sym3_subAlphaSkewSquare (sym3_add (inertia Ya) (inertia Yb)) (mass Ya * mass Yb * mab_inv) AB).
(** inertia.hpp 658-672: __pequ__ (operator+=) *)
Definition inertia_pequ (eps : R) (Ya Yb : Inertia) : Inertia :=
  let mab := mass Ya + mass Yb in
  let mab_inv := 1 / Rmax mab eps in
  let AB := v3sub (lever Ya) (lever Yb) in
  let c1 := v3scale (mass Ya * mab_inv) (lever Ya) in
  let c2 := v3add c1 (v3scale (mass Yb * mab_inv) (lever Yb)) in
  let I1 := sym3_add (inertia Ya) (inertia Yb) in
  let I2 := sym3_subAlphaSkewSquare I1 (mass Ya * mass Yb * mab_inv) AB in
  mkInertia mab c2 I2.
(** inertia.hpp 674-694: __minus__.  Real division by zero is a fixed real here while the
    code gets NaN/inf; the theorems about it assume the denominator non-zero. *)
Definition inertia_minus (eps : R) (Y Yb : Inertia) : Inertia :=
  let ma := mass Y - mass Yb in
  let ma_inv := 1 / Rmax ma eps in
  let c_a := v3scale ma_inv (v3sub (v3scale (mass Y) (lever Y)) (v3scale (mass Yb) (lever Yb))) in
  let AB := v3sub c_a (lever Yb) in
  mkInertia ma c_a
    (sym3_add (sym3_sub (inertia Y) (inertia Yb)) (sym3_AlphaSkewSquare (ma * mass Yb / mass Y) AB)).
(** inertia.hpp 696-714: __mequ__ (operator-=) *)
Definition inertia_mequ (eps : R) (Y Yb : Inertia) : Inertia :=
  let ma := mass Y - mass Yb in
  let ma_inv := 1 / Rmax ma eps in
  let c1 := v3scale (mass Y * ma_inv) (lever Y) in
  let c2 := v3sub c1 (v3scale (mass Yb * ma_inv) (lever Yb)) in
  let AB := v3sub c2 (lever Yb) in
  let I1 := sym3_sub (inertia Y) (inertia Yb) in
  let I2 := sym3_add I1 (sym3_AlphaSkewSquare (ma * mass Yb / mass Y) AB) in
  mkInertia ma c2 I2.

(** inertia.hpp 374-430: FromSphere, FromEllipsoid, FromCylinder, FromBox *)
Definition inertia_FromEllipsoid (m x y z : R) : Inertia :=
  mkInertia m v3zero (mkSym3 (m * (y * y + z * z) / 5) 0 (m * (x * x + z * z) / 5) 0 0 (m * (y * y + x * x) / 5)).
Definition inertia_FromSphere (m r : R) : Inertia := inertia_FromEllipsoid m r r r.
Definition inertia_FromCylinder (m r l : R) : Inertia :=
  let r2 := r * r in
  let a := m * (r2 / 4 + l * l / 12) in
  let c := m * (r2 / 2) in
  mkInertia m v3zero (mkSym3 a 0 a 0 0 c).
Definition inertia_FromBox (m x y z : R) : Inertia :=
  mkInertia m v3zero (mkSym3 (m * (y * y + z * z) / 12) 0 (m * (x * x + z * z) / 12) 0 0 (m * (y * y + x * x) / 12)).
(** inertia.hpp 439-470: FromCapsule *)
Definition inertia_FromCapsule (m radius height : R) : Inertia :=
  let v_cyl := PI * radius ^ 2 * height in
  let v_hs := 2 / 3 * radius ^ 3 * PI in
  let total_v := v_cyl + 2 * v_hs in
  let m_cyl := m * (v_cyl / total_v) in
  let m_hs := m * (v_hs / total_v) in
  let dist := height / 2 + 375 / 1000 * radius in
  let ix_c := m_cyl * (height ^ 2 / 12 + radius ^ 2 / 4) in
  let iz_c := m_cyl * radius ^ 2 / 2 in
  let ix_hs := m_hs * radius ^ 2 * (259375 / 1000000) in
  let iz_hs := m_hs * radius ^ 2 * (4 / 10) in
  let ix := ix_c + 2 * (ix_hs + m_hs * dist ^ 2) in
  let iz := iz_c + 2 * iz_hs in
  mkInertia m v3zero (mkSym3 ix 0 ix 0 0 iz).

(** inertia.hpp 541-550: dynamic parameters (m, m c, inertia about the origin) *)
Record DynParams := mkDyn { dyn_m : R; dyn_h : V3; dyn_I : Sym3 }.
Definition inertia_toDynamicParameters (Y : Inertia) : DynParams :=
  mkDyn (mass Y) (v3scale (mass Y) (lever Y)) (sym3_subAlphaSkewSquare (inertia Y) (mass Y) (lever Y)).
(** inertia.hpp 560-571 *)
Definition inertia_FromDynamicParameters (p : DynParams) : Inertia :=
  let m := dyn_m p in
  let c := v3scale (/ m) (dyn_h p) in
  mkInertia m c (sym3_add (dyn_I p) (sym3_AlphaSkewSquare m c)).

(** inertia.hpp 943-965: pseudo-inertia (mass, h, sigma) *)
Record PseudoInertia := mkPseudo { ps_m : R; ps_h : V3; ps_sigma : M3 }.
(** inertia.hpp 971-992: toMatrix / FromMatrix *)
Definition pseudo_toMatrix (p : PseudoInertia) : M4 := mkM4 (ps_sigma p) (ps_h p) (ps_h p) (ps_m p).
Definition pseudo_FromMatrix (A : M4) : PseudoInertia := mkPseudo (hs A) (ht A) (hR A).
(** inertia.hpp 999-1015 *)
Definition pseudo_FromDynamicParameters (p : DynParams) : PseudoInertia :=
  let Ib := sym3_matrix (dyn_I p) in
  mkPseudo (dyn_m p) (dyn_h p) (m3sub (m3scale (/ 2 * m3trace Ib) m3id) Ib).
(** inertia.hpp 1021-1036: upper-triangle reads *)
Definition pseudo_toDynamicParameters (p : PseudoInertia) : DynParams :=
  let Ib := m3sub (m3scale (m3trace (ps_sigma p)) m3id) (ps_sigma p) in
  mkDyn (ps_m p) (ps_h p) (mkSym3 (m00 Ib) (m01 Ib) (m11 Ib) (m02 Ib) (m12 Ib) (m22 Ib)).
(** inertia.hpp 1043-1057 *)
Definition pseudo_FromInertia (Y : Inertia) : PseudoInertia := pseudo_FromDynamicParameters (inertia_toDynamicParameters Y).
Definition pseudo_toInertia (p : PseudoInertia) : Inertia := inertia_FromDynamicParameters (pseudo_toDynamicParameters p).

(** inertia.hpp 1102-1120: the ten log-Cholesky parameters *)
Record LogCholesky := mkLC { lc_alpha : R; lc_d1 : R; lc_d2 : R; lc_d3 : R; lc_s12 : R; lc_s23 : R; lc_s13 : R;
                             lc_t1 : R; lc_t2 : R; lc_t3 : R }.
(** inertia.hpp 1126-1165 *)
Definition lc_toDynamicParameters (p : LogCholesky) : DynParams :=
  let e1 := exp (lc_d1 p) in let e2 := exp (lc_d2 p) in let e3 := exp (lc_d3 p) in
  let s12 := lc_s12 p in let s23 := lc_s23 p in let s13 := lc_s13 p in
  let t1 := lc_t1 p in let t2 := lc_t2 p in let t3 := lc_t3 p in
  let k := exp (2 * lc_alpha p) in
  mkDyn (k * 1) (v3scale k (mkV3 t1 t2 t3))
    (sym3_scale k (mkSym3
      (s23 ^ 2 + t2 ^ 2 + t3 ^ 2 + e2 ^ 2 + e3 ^ 2)
      (- s12 * e2 - s13 * s23 - t1 * t2)
      (s12 ^ 2 + s13 ^ 2 + t1 ^ 2 + t3 ^ 2 + e1 ^ 2 + e3 ^ 2)
      (- s13 * e3 - t1 * t3)
      (- s23 * e3 - t2 * t3)
      (s12 ^ 2 + s13 ^ 2 + s23 ^ 2 + t1 ^ 2 + t2 ^ 2 + e1 ^ 2 + e2 ^ 2))).
(** inertia.hpp 604-608, 1181-1185 *)
Definition lc_toInertia (p : LogCholesky) : Inertia := inertia_FromDynamicParameters (lc_toDynamicParameters p).
(** inertia.hpp 1171-1175 *)
Definition lc_toPseudoInertia (p : LogCholesky) : PseudoInertia := pseudo_FromDynamicParameters (lc_toDynamicParameters p).

(** inertia.hpp 1191-1275: calculateJacobian(), entry (i, j); entries not assigned are 0
    (Matrix10::Zero at 1196). *)
Definition lc_jacobian (p : LogCholesky) (i j : nat) : R :=
  let d1 := lc_d1 p in let d2 := lc_d2 p in let d3 := lc_d3 p in
  let s12 := lc_s12 p in let s23 := lc_s23 p in let s13 := lc_s13 p in
  let t1 := lc_t1 p in let t2 := lc_t2 p in let t3 := lc_t3 p in
  let E := exp (2 * lc_alpha p) in
  let e2d1 := exp (2 * d1) in let e2d2 := exp (2 * d2) in let e2d3 := exp (2 * d3) in
  let ed2 := exp d2 in let ed3 := exp d3 in
  match i, j with
  | 0%nat, 0%nat => 2 * E
  | 1%nat, 0%nat => 2 * t1 * E | 1%nat, 7%nat => E
  | 2%nat, 0%nat => 2 * t2 * E | 2%nat, 8%nat => E
  | 3%nat, 0%nat => 2 * t3 * E | 3%nat, 9%nat => E
  | 4%nat, 0%nat => 2 * (s23 ^ 2 + t2 ^ 2 + t3 ^ 2 + e2d2 + e2d3) * E
  | 4%nat, 2%nat => 2 * E * e2d2 | 4%nat, 3%nat => 2 * E * e2d3
  | 4%nat, 5%nat => 2 * s23 * E | 4%nat, 8%nat => 2 * t2 * E | 4%nat, 9%nat => 2 * t3 * E
  | 5%nat, 0%nat => -2 * (s12 * ed2 + s13 * s23 + t1 * t2) * E
  | 5%nat, 2%nat => - s12 * E * ed2 | 5%nat, 4%nat => - E * ed2 | 5%nat, 5%nat => - s13 * E
  | 5%nat, 6%nat => - s23 * E | 5%nat, 7%nat => - t2 * E | 5%nat, 8%nat => - t1 * E
  | 6%nat, 0%nat => 2 * (s12 ^ 2 + s13 ^ 2 + t1 ^ 2 + t3 ^ 2 + e2d1 + e2d3) * E
  | 6%nat, 1%nat => 2 * E * e2d1 | 6%nat, 3%nat => 2 * E * e2d3 | 6%nat, 4%nat => 2 * s12 * E
  | 6%nat, 6%nat => 2 * s13 * E | 6%nat, 7%nat => 2 * t1 * E | 6%nat, 9%nat => 2 * t3 * E
  | 7%nat, 0%nat => -2 * (s13 * ed3 + t1 * t3) * E
  | 7%nat, 3%nat => - s13 * E * ed3 | 7%nat, 6%nat => - E * ed3 | 7%nat, 7%nat => - t3 * E | 7%nat, 9%nat => - t1 * E
  | 8%nat, 0%nat => -2 * (s23 * ed3 + t2 * t3) * E
  | 8%nat, 3%nat => - s23 * E * ed3 | 8%nat, 5%nat => - E * ed3 | 8%nat, 8%nat => - t3 * E | 8%nat, 9%nat => - t2 * E
  | 9%nat, 0%nat => 2 * (s12 ^ 2 + s13 ^ 2 + s23 ^ 2 + t1 ^ 2 + t2 ^ 2 + e2d1 + e2d2) * E
  | 9%nat, 1%nat => 2 * E * e2d1 | 9%nat, 2%nat => 2 * E * e2d2 | 9%nat, 4%nat => 2 * s12 * E | 9%nat, 5%nat => 2 * s23 * E
  | 9%nat, 6%nat => 2 * s13 * E | 9%nat, 7%nat => 2 * t1 * E | 9%nat, 8%nat => 2 * t2 * E
  | _, _ => 0
  end.
