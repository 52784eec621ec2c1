(* algorithm/pgs-solver.hxx, algorithm/admm-solver.hxx and algorithm/contact-solver-utils.hpp.
   Vectors and matrices are functions of their indexes; n is problem_size; a cone is its friction coefficient mu.
   The size checks of solve are not modelled (sizes are not part of the representation); timers, statistics and printing are left out. *)
Require Import Reals List Arith.
From Verif Require Import Vec3 Model Sums Cone.
Import ListNotations.
Local Open Scope R_scope.

Definition rvec := nat -> R.
(* x.segment<3>(r) and its assignment *)
Definition seg3 (x : rvec) (r : nat) : V3 := mkV3 (x r) (x (r + 1)%nat) (x (r + 2)%nat).
Definition putSeg3 (x : rvec) (r : nat) (a : V3) : rvec := fun k =>
  if Nat.eqb k r then vx a else if Nat.eqb k (r + 1) then vy a else if Nat.eqb k (r + 2) then vz a else x k.
(* lpNorm<Eigen::Infinity>() *)
Fixpoint normInf (n : nat) (x : rvec) : R := match n with O => 0 | S k => Rmax (normInf k x) (Rabs (x k)) end.
Definition mulv (n : nat) (G : nat -> nat -> R) (x : rvec) : rvec := fun i => sumN n (fun j => G i j * x j).
Definition v3norm (a : V3) : R := sqrt (v3norm2 a).

(* ---- projected Gauss-Seidel ---- *)
(* pgs-solver.hxx 59-101, contact whose first row is r: the new x, contact_complementarity and contact_dual_feasibility *)
Definition pgsContact (n : nat) (G : nat -> nat -> R) (g : rvec) (w mu : R) (r : nat) (x : rvec) : rvec * R * R :=
  let vel := mkV3 (mulv n G x r + g r) (mulv n G x (r + 1)%nat + g (r + 1)%nat) (mulv n G x (r + 2)%nat + g (r + 2)%nat) in   (* 66 *)
  let fz0 := x (r + 2)%nat in
  let fz := Rmax 0 (fz0 - w / G (r + 2)%nat (r + 2)%nat * vz vel) in                                  (* 69-72 *)
  let vel := v3add vel (v3scale (fz - fz0) (mkV3 (G r (r + 2)%nat) (G (r + 1)%nat (r + 2)%nat) (G (r + 2)%nat (r + 2)%nat))) in   (* 75 *)
  let minD := Rmin (G r r) (G (r + 1)%nat (r + 1)%nat) in                                             (* 78 *)
  let tx := x r - w / minD * vx vel in let ty := x (r + 1)%nat - w / minD * vy vel in                 (* 83 *)
  let nt := sqrt (tx * tx + ty * ty) in                                                               (* 84 *)
  let mu_fz := mu * fz in                                                                             (* 86 *)
  let f := if Rlt_dec mu_fz nt then mkV3 (mu_fz / nt * tx) (mu_fz / nt * ty) fz else mkV3 tx ty fz in (* 87-88 *)
  let dx := vx f - x r in let dy := vy f - x (r + 1)%nat in
  let vel := mkV3 (G r r * dx + G r (r + 1)%nat * dy) (G (r + 1)%nat r * dx + G (r + 1)%nat (r + 1)%nat * dy)
                  (G (r + 2)%nat r * dx + G (r + 2)%nat (r + 1)%nat * dy) in                          (* 91: an assignment, not += *)
  let c := computeContactComplementarity mu vel f in                                                  (* 94 *)
  let vel := v3add vel (computeNormalCorrection mu vel) in                                            (* 98 *)
  (putSeg3 x r f, c, v3norm (v3sub (projectDual mu vel) vel)).                                        (* 99-100 *)
(* 57-102 *)
Fixpoint pgsSweep (n : nat) (G : nat -> nat -> R) (g : rvec) (w : R) (mus : list R) (r : nat) (s : rvec * R * R) : rvec * R * R :=
  match mus with
  | [] => s
  | mu :: mus => let '(x, c, d) := s in let '(x', c', d') := pgsContact n G g w mu r x in pgsSweep n G g w mus (r + 3) (x', Rmax c c', Rmax d d')
  end.
Record SolverOut := mkOut { so_ok : bool; so_x : rvec; so_abs : R; so_rel : R; so_it : nat }.
(* 52-125, 133-141: fuel is max_it - it *)
Fixpoint pgsLoop (n : nat) (G : nat -> nat -> R) (g : rvec) (w absp relp : R) (mus : list R) (fuel it : nat) (x : rvec) (xpn : R) (last : R * R) : SolverOut :=
  match fuel with
  | O => mkOut false x (fst last) (snd last) it
  | S fuel =>
    let '(x', c, d) := pgsSweep n G g w mus 0 (x, 0, 0) in
    let prox := normInf n (fun k => x' k - x k) in                                                    (* 112 *)
    let xn := normInf n x' in
    let ab := if Rle_dec c absp then if Rle_dec d absp then true else false else false in             (* 105-110 *)
    let rl := if Rle_dec prox (relp * Rmax xn xpn) then true else false in                            (* 114-119 *)
    if orb ab rl then mkOut true x' (Rmax c d) prox it                                                (* 121-122 *)
    else pgsLoop n G g w absp relp mus fuel (it + 1) x' xn (Rmax c d, prox)
  end.
(* 19-142; without iteration the residuals that are returned are indeterminate values; contacts beyond the size are outside of the vectors *)
Definition pgsSolve (n max_it : nat) (absp relp : R) (G : nat -> nat -> R) (g : rvec) (mus : list R) (x0 : rvec) (w : R) : Res unit SolverOut :=
  if Rlt_dec w 2 then if Rlt_dec 0 w then                                                             (* 32-33 *)
    if orb (Nat.ltb n (3 * length mus)) (Nat.eqb max_it 0) then Undef
    else Ok tt (pgsLoop n G g w absp relp mus max_it 0 x0 (normInf n x0) (0, 0))
  else Throw tt else Throw tt.

(* ---- contact-solver-utils.hpp ---- *)
Fixpoint onSegs (f : R -> V3 -> V3) (mus : list R) (r : nat) (x out : rvec) : rvec :=
  match mus with [] => out | mu :: mus => onSegs f mus (r + 3) x (putSeg3 out r (f mu (seg3 x r))) end.
(* 25-39; x and the result can be the same vector (117): each segment is read before it is written *)
Definition computeConeProjection (mus : list R) (x out : rvec) : rvec := onSegs project mus 0 x out.
(* 47-61 *)
Definition computeDualConeProjection (mus : list R) (x out : rvec) : rvec := onSegs projectDual mus 0 x out.
(* 92-106 *)
Definition computeComplementarityShift (mus : list R) (v out : rvec) : rvec := onSegs computeNormalCorrection mus 0 v out.
(* 68-85 *)
Fixpoint conicComplementarity (mus : list R) (r : nat) (v f : rvec) (c : R) : R :=
  match mus with [] => c | _ :: mus => conicComplementarity mus (r + 3) v f (Rmax c (computeConicComplementarity (seg3 v r) (seg3 f r))) end.

(* ---- ADMM ---- *)
(* admm-solver.hpp: the vectors and scalars kept between two calls *)
Record Admm := mkAdmm { ad_init : bool; ad_x : rvec; ad_y : rvec; ad_z : rvec; ad_s : rvec; ad_rho : R; ad_rhoPower : R; ad_abs : R; ad_rel : R; ad_it : nat; ad_chol : nat }.
Record AdmmParam := mkAP { ap_muProx : R; ap_tau : R; ap_factor : R; ap_ratio : R; ap_absp : R; ap_maxIt : nat }.
(* admm-solver.hpp 301-316 *)
Definition computeRho (L m p : R) : R := sqrt (L * m) * Rpower (L / m) p.
Definition computeRhoPower (L m rho : R) : R := ln (rho / sqrt (L * m)) / ln (L / m).
(* R.minCoeff() *)
Fixpoint minCoeff (n : nat) (x : rvec) : R := match n with O => 0 | S O => x O | S k => Rmin (minCoeff k x) (x k) end.

Section ADMM.
(* the Delassus operator with the damping d: applyOnTheRight is app d, solveInPlace is sol d; updateDamping sets d *)
Variables (app sol : rvec -> rvec -> rvec).
Variables (n : nat) (P : AdmmParam) (mus : list R) (g Rv : rvec) (L m : R).
Let tau := ap_tau P.
Let muP := ap_muProx P.
Definition damping (rho : R) : rvec := fun k => Rv k + (muP + tau * rho).                             (* 82-84, 296-298 *)
(* 156-193: one iteration, from (x, y, z) with the penalty rho *)
Definition admmStep (rho : R) (x y z s : rvec) : rvec * rvec * rvec * rvec :=
  let s := computeComplementarityShift mus z s in                                                     (* 162 *)
  let rhs := fun k => - (g k + s k - (rho * tau) * y k - muP * x k - z k) in                          (* 174 *)
  let x' := sol (damping rho) rhs in                                                                  (* 177-182 *)
  let y' := computeConeProjection mus (fun k => x' k - z k / (tau * rho)) y in                        (* 187-189 *)
  let z' := fun k => z k - (tau * rho) * (x' k - y' k) in                                             (* 193 *)
  (x', y', z', s).
(* 205-229 *)
Definition admmPrimal (x' y' : rvec) : R := normInf n (fun k => x' k - y' k).
Definition admmDual (rho : R) (x y x' y' : rvec) : R := normInf n (fun k => (tau * rho) * (y' k - y k) + muP * (x' k - x k)).
(* 150-306 *)
Fixpoint admmLoop (inc : R) (fuel it chol : nat) (rho : R) (x y z s : rvec) (last : R * R) : bool * Admm :=
  match fuel with
  | O => (false, mkAdmm true x y z s rho (computeRhoPower L m rho) (fst last) (snd last) it chol)
  | S fuel =>
    let '(x', y', z', s') := admmStep rho x y z s in
    let pf := admmPrimal x' y' in let df := admmDual rho x y x' y' in
    let prox := normInf n (fun k => y' k - y k) in
    let c := conicComplementarity mus 0 z' y' 0 in                                                    (* 229 *)
    let res := Rmax pf (Rmax c df) in                                                                 (* 310-311 *)
    let ok := if Rle_dec c (ap_absp P) then if Rle_dec df (ap_absp P) then if Rle_dec pf (ap_absp P) then true else false else false else false in   (* 257-263 *)
    if ok then (true, mkAdmm true x' y' z' s' rho (computeRhoPower L m rho) res prox it chol)         (* 274-275 *)
    else
      let up := if Rlt_dec (ap_ratio P * df) pf then (rho * inc, 1%nat) else if Rlt_dec (ap_ratio P * pf) df then (rho / inc, 1%nat) else (rho, 0%nat) in   (* 278-300 *)
      admmLoop inc fuel (it + 1) (chol + snd up) (fst up) x' y' z' s' (res, prox)
  end.
(* 22-336; L is the estimate of the largest eigenvalue left by the power iteration (45-51); m = mu_prox + min R *)
Definition admmSolve (st : Admm) (primal dual : option rvec) : Res Admm bool :=
  let mR := minCoeff n Rv in
  if Rle_dec tau 1 then if Rlt_dec 0 tau then if Rle_dec 0 muP then if Rle_dec 0 mR then               (* 38-40 *)
    if orb (Nat.ltb n (3 * length mus)) (Nat.eqb (ap_maxIt P) 0) then Undef else
    let inc := Rpower (L / m) (ap_factor P) in                                                        (* 54-55 *)
    let rho := computeRho L m (ad_rhoPower st) in                                                     (* 64 *)
    let prox := muP + tau * rho in                                                                    (* 82 *)
    let x := match primal with Some x => x | None => if ad_init st then ad_y st else (fun _ => 0) end in   (* 89-101 *)
    let y := computeConeProjection mus x (ad_y st) in                                                 (* 104 *)
    let '(z, s) := match dual with                                                                    (* 107-123 *)
      | Some z => (z, ad_s st)
      | None => if ad_init st then (ad_z st, ad_s st) else
          let z := fun k => app (damping rho) y k + (- prox * y k + g k) in
          let s := computeComplementarityShift mus z (ad_s st) in
          let z := fun k => z k + s k in (computeDualConeProjection mus z z, s) end in
    let '(b, st') := admmLoop inc (ap_maxIt P) 1 1 rho x y z s (0, 0) in Ok st' b
  else Throw st else Throw st else Throw st else Throw st.
End ADMM.
(* admm-solver.hpp 272-281: the overload that takes the initial guess and result x calls the other one with x at the place of R and a zero primal guess *)
Definition admmSolveX (app sol : rvec -> rvec -> rvec) (n : nat) (P : AdmmParam) (mus : list R) (g : rvec) (L : R) (st : Admm) (x : rvec) : Res Admm (bool * rvec) :=
  match admmSolve app sol n P mus g x L (ap_muProx P + minCoeff n x) st (Some (fun _ => 0)) None with
  | Ok st b => Ok st (b, x) | Throw st => Throw st | Undef => Undef
  end.
