(* The fields of pinocchio::Data that only the derivative algorithms use, and the matrices they fill for the caller. *)
Require Import Reals List Arith Lia.
From Verif Require Import Vec3 Spatial Inertia Joints Model Spec_Model Data Kinematics Crba.
Import ListNotations.
Local Open Scope nat_scope.

(* data.hpp: dAdq, dAdv, dFdq, dFdv, dFda, matrices with 6 rows and nv columns *)
Inductive XcT := X_dAdq | X_dAdv | X_dFdq | X_dFdv | X_dFda.
(* the output arguments: the partial derivatives with respect to q, v and a *)
Inductive XmT := P_dq | P_dv | P_da.
Scheme Equality for XcT.
Scheme Equality for XmT.
Record DX := mkDX { bs : Data; xco : XcT -> nat -> V6; xma : XmT -> nat -> nat -> R }.
Definition onBs (s : DX) (f : Data -> Data) : DX := mkDX (f (bs s)) (xco s) (xma s).
Definition onXc (s : DX) (t : XcT) (f : (nat -> V6) -> nat -> V6) : DX := mkDX (bs s) (put XcT_beq (xco s) t (f (xco s t))) (xma s).
Definition onXm (s : DX) (t : XmT) (f : (nat -> nat -> R) -> nat -> nat -> R) : DX := mkDX (bs s) (xco s) (put XmT_beq (xma s) t (f (xma s t))).

(* x += f on the columns b .. b+n-1 *)
Definition plusCols (b n : nat) (f : nat -> V6) (x : nat -> V6) : nat -> V6 := fun k => if within b n k then v6add (x k) (f (k - b)) else x k.
(* rnea.hxx 559-572, rnea-derivatives.hxx 340-351 addForceCrossMatrix: the matrix of x -> x cross f is added *)
Definition addForceCross (f : V6) (B : M6) : M6 :=
  mkM6 (mLL B) (m3add (mLA B) (skew (v3opp (lin f)))) (m3add (mAL B) (skew (v3opp (lin f)))) (m3add (mAA B) (skew (v3opp (ang f)))).

Ltac memx := cbn beta iota zeta delta [mo pl yi m6 p3 sc jd jU jDinv jUDinv ve co ma jcom gv gs ig oMf fcrb rows gl put
  setMo setPl setYi setM6 setP3 setSc setJd setAba setVe setCo setMa setJcom setGv setGs setIg setOMf setFcrb setRow setGl
  MoT_beq PlT_beq YiT_beq M6T_beq P3T_beq ScT_beq VeT_beq CoT_beq MaT_beq GvT_beq GsT_beq
  bs xco xma onBs onXc onXm XcT_beq XmT_beq].
