(* algorithm/contact-inverse-dynamics.hpp *)
Require Import Reals List Arith Bool.
From Verif Require Import Vec3 Spatial Inertia Joints Sums Deriv Model Data Kinematics Rnea Jacobian Cone Contact Constraint.
Import ListNotations.
Local Open Scope R_scope.

(* an Eigen vector whose size is known at run time only *)
Record SVec := mkSV { sv_n : nat; sv_x : rvec }.
(* proximal.hpp 20-130 ProximalSettingsTpl: the members read here, then those written here (relative_residual and iter) *)
Record Prox := mkProx { px_mu : R; px_rel : R; px_max : nat; px_res : R; px_it : nat }.

(* contact-inverse-dynamics.hpp 106-120: the new segment, for the friction mu, settings.mu = p, the segments of c_ref, R and the impulses x;
   xp is the segment of impulse_c_prev *)
Definition ciSeg (mu p : R) (c r x xp : V3) : V3 :=
  let rp := v3add r (mkV3 p p p) in                                                                    (* 84, 109 *)
  let de := computeNormalCorrection mu (v3add c (mkV3 (vx r * vx x) (vy r * vy x) (vz r * vz x))) in   (* 113-115 *)
  let u := v3sub (v3add c de) (v3scale p xp) in
  weightedProject mu (v3opp (mkV3 (vx u / vx rp) (vy u / vy rp) (vz u / vz rp))) rp.                   (* 116-120 *)
(* 103-121 *)
Fixpoint ciSweep (p : R) (c Rv xp : rvec) (mus : list R) (r : nat) (x : rvec) : rvec :=
  match mus with
  | [] => x
  | mu :: mus => ciSweep p c Rv xp mus (r + 3) (putSeg3 x r (ciSeg mu p (seg3 c r) (seg3 Rv r) (seg3 x r) (seg3 xp r)))
  end.
(* 100-145: fuel is max_iter + 1 - it; n is the size of impulse_c; abs_prec_reached (97) never becomes true *)
Fixpoint ciLoop (n : nat) (p rel : R) (c Rv : rvec) (mus : list R) (fuel it : nat) (x : rvec) (xpn res : R) : rvec * R * nat :=
  match fuel with
  | O => (x, res, it)
  | S fuel =>
    let x' := ciSweep p c Rv x mus 0 x in
    let res := normInf n (fun k => x' k - x k) in                                                      (* 122-123 *)
    let xn := normInf n x' in                                                                          (* 133 *)
    if Rle_dec res (rel * Rmax xn xpn) then (x', res, it)                                              (* 134-142 *)
    else ciLoop n p rel c Rv mus fuel (it + 1) x' xn res
  end.
(* 56-147 computeContactImpulses; the state is data.impulse_c; ncm and ncd are the sizes of contact_models and contact_datas.  Left out: J (81-82) and
   c_ref_cor (85), which are computed and not used, and the sizes of c_ref, of which n components are read.  cones is not checked against the sizes:
   segments beyond the end of a vector are undefined behaviour.  Throw keeps the guess that has been assigned (88-89) *)
Definition computeContactImpulses (imp : SVec) (c : rvec) (ncm ncd : nat) (mus : list R) (Rv corr : SVec) (P : Prox) (guess : option SVec) : Res SVec Prox :=
  let n := sv_n Rv in
  if negb (sv_n corr =? n)%nat || negb (ncm =? n / 3)%nat || negb (ncd =? n / 3)%nat then Throw imp       (* 74-78 *)
  else if Rlt_dec 0 (px_mu P) then                                                                     (* 79-80 *)
    let start := match guess with Some g => g | None => mkSV (sv_n imp) (fun _ => 0) end in            (* 86-94: setZero keeps the size *)
    if match guess with Some g => negb (sv_n g =? n)%nat | None => false end then Throw start          (* 89 *)
    else if (n <? 3 * length mus)%nat || (sv_n start <? 3 * length mus)%nat then
      match px_max P with O => Ok start (mkProx (px_mu P) (px_rel P) (px_max P) (px_res P) 1) | S _ => Undef end   (* 105-109 *)
    else
      let '(x, res, it) := ciLoop (sv_n start) (px_mu P) (px_rel P) c (sv_x Rv) mus (px_max P) 1 (sv_x start) (normInf (sv_n start) (sv_x start)) (px_res P) in
      Ok (mkSV (sv_n start) x) (mkProx (px_mu P) (px_rel P) (px_max P) res it)
  else Throw imp.

(* fext[j] += x *)
Definition addAt (f : nat -> Force) (j : nat) (x : Force) : nat -> Force := fun i => if (i =? j)%nat then v6add (f j) x else f i.
(* 231-248: the forces on the joints; joint1_placement.toActionMatrixInverse() transposed, first three columns, times lambda, is the force
   lambda at the frame seen from the joint; the same segment is added, with the same sign, on both joints *)
Fixpoint ciForces (cs : list RigidConstraintModel) (r : nat) (lam : rvec) (f : nat -> Force) : nat -> Force :=
  match cs with
  | [] => f
  | c :: cs =>
      let f := addAt f (rc_j1 c) (force_act (rc_p1 c) (mkV6 (seg3 lam r) v3zero)) in   (* 243 *)
      let f := addAt f (rc_j2 c) (force_act (rc_p2 c) (mkV6 (seg3 lam r) v3zero)) in   (* 247 *)
      ciForces cs (r + 3) lam f
  end.
(* 189-251 contactInverseDynamics; the result is (data.tau, data.lambda_c, settings).  The sizes checked by getConstraintsJacobian (215) are not
   modelled; (214) J starts at zero.  The first n_contacts = n / 3 constraints are read in 235: computeContactImpulses has checked that there are as many *)
Definition contactInverseDynamics (m : Model) (d : Data) (imp : SVec) (q v a : vec) (dt : R) (cs : list RigidConstraintModel) (ncd : nat) (mus : list R)
  (Rv corr : SVec) (P : Prox) (guess : option SVec) : Res SVec (vec * rvec * Prox) :=
  let J := getConstraintsJacobian m d cs (fun _ _ => 0) in                                             (* 215 *)
  let vref := fun k => v k + dt * a k in                                                               (* 217 *)
  let c := fun i => dotv (m_nv m) (J i) vref in                                                        (* 218 *)
  let imp := match guess with Some g => mkSV (sv_n g) (fun k => sv_x g k * dt) | None => imp end in    (* 220-223 *)
  let guess := match guess with Some _ => Some imp | None => None end in                               (* 224 *)
  match computeContactImpulses imp c (length cs) ncd mus Rv corr P guess with                          (* 226-228 *)
  | Throw s => Throw s
  | Undef => Undef
  | Ok s P' =>
      if (sv_n s <? 3 * length cs)%nat then Undef else                                                 (* 239: sizes of lambda_c *)
      let lam := fun k => sv_x s k / dt in                                                             (* 229 *)
      Ok s (rneaExt m d q v a (ciForces cs 0 lam (fun _ => v6zero)), lam, P')                          (* 230-249 *)
  end.
