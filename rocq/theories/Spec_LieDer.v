(* Moving configurations: what it means for a configuration to move at a velocity, to be reached by a motion of unit time. *)
Require Import Reals Arith List.
From Verif Require Import Vec3 Spatial Joints Model Rot Deriv ExpLog Spec_Exp Kinematics LieGroup Spec_Lie ExpJac Spec_ExpJac LieDer.
Local Open Scope R_scope.

(* the placement of a configuration of SE(3) *)
Definition poseOf (q : vec) : SE3 := mkSE3 (qmat (quatAt (shift 3 q))) (v3At q).
(* at time t the configuration q moves at the velocity w, expressed in the moving body *)
Fixpoint movesAt (g : LG) (q : R -> vec) (w : vec) (t : R) : Prop :=
  match g with
  | LVec n => forall k, (k < n)%nat -> deriv (fun u => q u k) (w k) t
  | LSO2 => deriv (fun u => q u 0%nat) (- q t 1%nat * w 0%nat) t /\ deriv (fun u => q u 1%nat) (q t 0%nat * w 0%nat) t
  | LSO3 => turns (fun u => qmat (quatAt (q u))) (v3At w) t
  | LSE2 => deriv (fun u => q u 0%nat) (q t 2%nat * w 0%nat - q t 3%nat * w 1%nat) t /\ deriv (fun u => q u 1%nat) (q t 3%nat * w 0%nat + q t 2%nat * w 1%nat) t /\
            deriv (fun u => q u 2%nat) (- q t 3%nat * w 2%nat) t /\ deriv (fun u => q u 3%nat) (q t 2%nat * w 2%nat) t
  | LSE3 => hasTwist (fun u => poseOf (q u)) (v6At w) t
  | LProd a b => movesAt a q w t /\ movesAt b (fun u => shift (lg_nq a) (q u)) (shift (lg_nv a) w) t
  end.
(* p is where the motion of constant body velocity v leads from q in unit time (quaternions count as their rotations) *)
Fixpoint leadsTo (g : LG) (q v p : vec) : Prop :=
  match g with
  | LVec n => forall k, (k < n)%nat -> p k = q k + v k
  | LSO2 => p 0%nat = q 0%nat * cos (v 0%nat) - q 1%nat * sin (v 0%nat) /\ p 1%nat = q 0%nat * sin (v 0%nat) + q 1%nat * cos (v 0%nat)
  | LSO3 => qmat (quatAt p) = m3mul (qmat (quatAt q)) (Rexp (v3At v))
  | LSE2 => eqTo 4 p (planarFlow q v)
  | LSE3 => poseOf p = se3_mul (poseOf q) (SE3exp (v6At v))
  | LProd a b => leadsTo a q v p /\ leadsTo b (shift (lg_nq a) q) (shift (lg_nv a) v) (shift (lg_nq a) p)
  end.
(* the derivative of a moving tangent vector *)
Definition derivTo (n : nat) (v : R -> vec) (dv : vec) (t : R) : Prop := forall k, (k < n)%nat -> deriv (fun u => v u k) (dv k) t.
(* a matrix times a vector *)
Definition jacMul (n : nat) (J : jac) (w : vec) : vec := fun k => sumTo n (fun j => J k j * w j).
Definition zeroJac : jac := fun _ _ => 0.
(* the rotations of v are not in the Taylor zone of Jexp3, Jexp6 and exp, and are not full turns *)
Fixpoint turning (eps : R) (g : LG) (v : vec) : Prop :=
  match g with
  | LVec _ | LSO2 => True
  | LSO3 => ts3 eps <= v3norm (v3At v)
  | LSE2 => ts3 eps < Rabs (v 2%nat) /\ e14 < Rabs (v 2%nat) /\ cos (v 2%nat) <> 1
  | LSE3 => ts3 eps < v3norm (ang (v6At v)) /\ cos (v3norm (ang (v6At v))) <> 1
  | LProd a b => turning eps a v /\ turning eps b (shift (lg_nv a) v)
  end.
(* x is the velocity y: exactly, up to 12 eps |w| on SO(3), up to eps (12 + 240 |v|) |w| on SE(3) *)
Fixpoint sameRate (eps : R) (g : LG) (v w x y : vec) : Prop :=
  match g with
  | LVec n => eqTo n x y
  | LSO2 => x 0%nat = y 0%nat
  | LSE2 => eqTo 3 x y
  | LSO3 => v3close (12 * eps * v3norm (v3At w)) (v3At x) (v3At y)
  | LSE3 => let l := v3norm (lin (v6At w)) in let a := v3norm (ang (v6At w)) in
            v3close (eps * (12 * l + 240 * v3norm (lin (v6At v)) * a)) (lin (v6At x)) (lin (v6At y)) /\ v3close (12 * eps * a) (ang (v6At x)) (ang (v6At y))
  | LProd a b => sameRate eps a v w x y /\
                 sameRate eps b (shift (lg_nv a) v) (shift (lg_nv a) w) (shift (lg_nv a) x) (shift (lg_nv a) y)
  end.
(* d turns by less than half a turn (at most half a turn in space) *)
Fixpoint shortest (g : LG) (d : vec) : Prop :=
  match g with
  | LVec _ => True
  | LSO2 => Rabs (d 0%nat) < PI
  | LSE2 => Rabs (d 2%nat) < PI
  | LSO3 => v3norm (v3At d) <= PI
  | LSE3 => v3norm (ang (v6At d)) <= PI
  | LProd a b => shortest a d /\ shortest b (shift (lg_nv a) d)
  end.
(* the rotations of d are not in the zones of the expansions of the logarithms, around zero and half turns *)
Definition between (eps th : R) : Prop := ts2 eps < 2 * (1 - cos th) /\ -1 + ts2 eps < cos th.
Fixpoint apart (eps : R) (g : LG) (d : vec) : Prop :=
  match g with
  | LVec _ | LSO2 => True
  | LSE2 => 1 / 10 ^ 4 <= Rabs (d 2%nat)
  | LSO3 => between eps (v3norm (v3At d))
  | LSE3 => between eps (v3norm (ang (v6At d)))
  | LProd a b => apart eps a d /\ apart eps b (shift (lg_nv a) d)
  end.
(* no simple joint owns both coordinates *)
Definition separate (m : Model) (k l : nat) : Prop := forall iq iv s, leafOf m iq iv s -> ~ (iv <= k < iv + nv1 s /\ iv <= l < iv + nv1 s)%nat.
