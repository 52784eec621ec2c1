(** Property theorems C72 (projected Gauss-Seidel contact solver) and C73 (ADMM contact solver). Statements only. *)
From Coq Require Import Reals List PeanoNat.
From Verif Require Import Vec3 Model Sums Spec_Cone Contact Spec_Contact ContactFacts ContactFacts2.
Import ListNotations.
Local Open Scope R_scope.

(** C72: the over-relaxation is checked *)
Theorem C72_throws (n mx : nat) (absp relp : R) (G : nat -> nat -> R) (g : nat -> R) (mus : list R) (x0 : nat -> R) (w : R) :
  pgsSolve n mx absp relp G g mus x0 w = Throw tt <-> ~ 0 < w < 2.
Proof. exact (pgs_throw n mx absp relp G g mus x0 w). Qed.
Print Assumptions C72_throws.
(** the forces it returns are in the friction cones, whatever the number of iterations *)
Theorem C72_cones (n mx : nat) (absp relp : R) (G : nat -> nat -> R) (g : nat -> R) (mus : list R) (x0 : nat -> R) (w : R) (o : SolverOut) (i : nat) :
  pgsSolve n mx absp relp G g mus x0 w = Ok tt o -> (i < length mus)%nat -> 0 <= nth i mus 0 -> inCone (nth i mus 0) (seg3 (so_x o) (3 * i)).
Proof. exact (pgs_cones n mx absp relp G g mus x0 w o i). Qed.
Print Assumptions C72_cones.
(** the number of iterations, and the criterion behind the answer true *)
Theorem C72_answer (n mx : nat) (absp relp : R) (G : nat -> nat -> R) (g : nat -> R) (mus : list R) (x0 : nat -> R) (w : R) (o : SolverOut) :
  pgsSolve n mx absp relp G g mus x0 w = Ok tt o ->
  (so_it o <= mx)%nat /\ (so_ok o = true <-> (so_it o < mx)%nat) /\
  (so_ok o = true -> so_abs o <= absp \/ exists xp, so_rel o = normInf n (fun k => so_x o k - xp k) /\ so_rel o <= relp * Rmax (normInf n (so_x o)) (normInf n xp)).
Proof. exact (pgs_answer n mx absp relp G g mus x0 w o). Qed.
Print Assumptions C72_answer.
(** when the last sweep did not move the forces, they solve the contact problem *)
Theorem C72_fixed_point (n mx : nat) (absp relp : R) (G : nat -> nat -> R) (g : nat -> R) (mus : list R) (x0 : nat -> R) (w : R) (o : SolverOut) :
  pgsSolve n mx absp relp G g mus x0 w = Ok tt o ->
  (forall i, (i < length mus)%nat -> 0 <= nth i mus 0) -> (forall k, (k < 3 * length mus)%nat -> 0 < G k k) ->
  so_rel o = 0 -> contactSolution n G g mus (so_x o).
Proof. exact (pgs_solution n mx absp relp G g mus x0 w o). Qed.
Print Assumptions C72_fixed_point.
(** a solution given as initial guess comes back at once *)
Theorem C72_warm_start (n mx : nat) (absp relp : R) (G : nat -> nat -> R) (g : nat -> R) (mus : list R) (x : nat -> R) (w : R) :
  0 < w < 2 -> (3 * length mus <= n)%nat -> (1 <= mx)%nat -> 0 <= relp ->
  (forall i, (i < length mus)%nat -> 0 <= nth i mus 0) -> (forall k, (k < 3 * length mus)%nat -> 0 < G k k) -> contactSolution n G g mus x ->
  exists o, pgsSolve n mx absp relp G g mus x w = Ok tt o /\ so_ok o = true /\ so_x o = x /\ so_it o = 0%nat /\ so_rel o = 0.
Proof. exact (pgs_warm n mx absp relp G g mus x w). Qed.
Print Assumptions C72_warm_start.
(** a sliding contact point meets these hypotheses *)
Example C72_ex : contactSolution 3 eG eg [1 / 2] ex /\
  (forall i, (i < length [1 / 2])%nat -> 0 < nth i [1 / 2] 0) /\ (forall k, (k < 3 * length [1 / 2])%nat -> 0 < eG k k).
Proof. exact (conj e_solution e_hyps). Qed.
(** the answer true with a residual within the precision does not mean that the forces solve the problem: the velocities behind the residual
    are not those of the problem. Two contact points, default over-relaxation, precision 0: the residual is 0 and a force pushes on an opening contact *)
Theorem C72_criterion_refuted (mx : nat) : (1 <= mx)%nat ->
  exists o, pgsSolve 6 mx 0 0 wG wg [1; 1] (fun _ => 0) 1 = Ok tt o /\ so_ok o = true /\ so_abs o = 0 /\ ~ contactSolution 6 wG wg [1; 1] (so_x o).
Proof. exact (pgs_witness mx). Qed.
Print Assumptions C72_criterion_refuted.

(** C73: the parameters are checked *)
Theorem C73_throws (app sol : (nat -> R) -> (nat -> R) -> nat -> R) (n : nat) (P : AdmmParam) (mus : list R) (g Rv : nat -> R) (L m : R) (st : Admm) (primal dual : option (nat -> R)) :
  admmSolve app sol n P mus g Rv L m st primal dual = Throw st <-> ~ (0 < ap_tau P <= 1 /\ 0 <= ap_muProx P /\ 0 <= minCoeff n Rv).
Proof. exact (admm_throw app sol n P mus g Rv L m st primal dual). Qed.
Print Assumptions C73_throws.
(** the primal result is in the cones, the dual result in the dual cones, and they are orthogonal; the residual that is kept bounds the distance
    between the two primal variables and the error of the contact model, and is within the precision when the answer is true *)
Theorem C73_result (app sol : (nat -> R) -> (nat -> R) -> nat -> R) (n : nat) (G : nat -> nat -> R) (P : AdmmParam) (mus : list R) (g Rv : nat -> R) (L m : R)
  (st : Admm) (primal dual : option (nat -> R)) (b : bool) (o : Admm) :
  exactSolve n G sol -> 0 < ap_tau P -> 0 <= ap_muProx P -> 0 <= minCoeff n Rv -> (forall i, (i < length mus)%nat -> 0 < nth i mus 0) -> (3 * length mus <= n)%nat -> 0 < L -> 0 < m ->
  admmSolve app sol n P mus g Rv L m st primal dual = Ok o b ->
  (forall i, (i < length mus)%nat -> inCone (nth i mus 0) (seg3 (ad_y o) (3 * i)) /\ inDual (nth i mus 0) (seg3 (ad_z o) (3 * i)) /\ v3dot (seg3 (ad_y o) (3 * i)) (seg3 (ad_z o) (3 * i)) = 0) /\
  (b = true -> ad_abs o <= ap_absp P) /\ 0 < ad_rho o /\ (1 <= ad_it o <= ap_maxIt P + 1)%nat /\ (b = true -> ad_it o <= ap_maxIt P)%nat /\
  exists rho zp, 0 < rho /\ (b = true -> rho = ad_rho o) /\
  (forall k, (k < n)%nat -> Rabs (ad_x o k - ad_y o k) <= ad_abs o) /\
  (forall i, (i < length mus)%nat -> seg3 (ad_s o) (3 * i) = mkV3 0 0 (nth i mus 0 * sqrt (zp (3 * i)%nat * zp (3 * i)%nat + zp (3 * i + 1)%nat * zp (3 * i + 1)%nat))) /\
  (forall k, (k < n)%nat -> Rabs (mulv n G (ad_x o) k + Rv k * ad_x o k + g k + ad_s o k - ad_z o k) <= ad_abs o) /\
  (forall k, (k < n)%nat -> Rabs (ad_z o k - zp k) <= ap_tau P * rho * ad_abs o).
Proof. intros H0 H1 H2 H3 H4 H5. exact (solve_facts app sol n G P mus g Rv L m H0 H1 H2 H3 H4 H5 st primal dual b o). Qed.
Print Assumptions C73_result.
(** with precision 0 the answer true is given for solutions only *)
Theorem C73_exact (app sol : (nat -> R) -> (nat -> R) -> nat -> R) (n : nat) (G : nat -> nat -> R) (P : AdmmParam) (mus : list R) (g Rv : nat -> R) (L m : R)
  (st : Admm) (primal dual : option (nat -> R)) (o : Admm) :
  exactSolve n G sol -> 0 < ap_tau P -> 0 <= ap_muProx P -> 0 <= minCoeff n Rv -> (forall i, (i < length mus)%nat -> 0 < nth i mus 0) -> (3 * length mus <= n)%nat -> 0 < L -> 0 < m ->
  ap_absp P = 0 -> admmSolve app sol n P mus g Rv L m st primal dual = Ok o true ->
  contactSolution n (fun i j => G i j + (if Nat.eqb i j then Rv i else 0)) g mus (ad_y o).
Proof. intros H0 H1 H2 H3 H4 H5. exact (zero_solution app sol n G P mus g Rv L m H0 H1 H2 H3 H4 H5 st primal dual o). Qed.
Print Assumptions C73_exact.
(** started from a solution and its corrected velocities, it returns them after one iteration *)
Theorem C73_warm_start (app sol : (nat -> R) -> (nat -> R) -> nat -> R) (n : nat) (G : nat -> nat -> R) (P : AdmmParam) (mus : list R) (g Rv : nat -> R) (L m : R)
  (st : Admm) (xs zs : nat -> R) : let GR := fun i j => G i j + (if Nat.eqb i j then Rv i else 0) in
  exactSolve n G sol -> 0 < ap_tau P -> 0 <= ap_muProx P -> 0 <= minCoeff n Rv -> (forall i, (i < length mus)%nat -> 0 < nth i mus 0) -> 0 < L -> 0 < m ->
  0 <= ap_absp P -> ap_tau P <= 1 -> (1 <= ap_maxIt P)%nat -> n = (3 * length mus)%nat -> contactSolution n GR g mus xs ->
  (forall i, (i < length mus)%nat -> let v := seg3 (contactVel n GR g xs) (3 * i) in seg3 zs (3 * i) = mkV3 (vx v) (vy v) (vz v + nth i mus 0 * sqrt (vx v * vx v + vy v * vy v))) ->
  exists o, admmSolve app sol n P mus g Rv L m st (Some xs) (Some zs) = Ok o true /\ ad_it o = 1%nat /\ ad_abs o = 0 /\ (forall k, (k < n)%nat -> ad_y o k = xs k /\ ad_z o k = zs k).
Proof. intros GR H0 H1 H2 H3 H4 L1 L2 L3 L4 L5 H5. exact (warm app sol n G P mus g Rv L m H0 H1 H2 H3 H4 (Nat.eq_le_incl _ _ (eq_sym H5)) st xs zs L1 L2 L3 L4 L5 H5). Qed.
Print Assumptions C73_warm_start.
(** the contact point of C72_ex has an exact solver *)
Example C73_ex : exactSolve 3 eG eSol.
Proof. exact e_exact. Qed.
(** the overload that documents its last argument as initial guess and result takes it for the regularization: it throws on a guess with a negative
    entry and returns the guess, a solution or not *)
Theorem C73_overload_refuted (app sol : (nat -> R) -> (nat -> R) -> nat -> R) (L : R) (st : Admm) :
  (forall n P mus g x, minCoeff n x < 0 -> admmSolveX app sol n P mus g L st x = Throw st) /\
  (forall n P mus g x st' b x', admmSolveX app sol n P mus g L st x = Ok st' (b, x') -> x' = x) /\
  exists st' b x', admmSolveX app sol 3 eP [1 / 2] eg L st (fun _ => 0) = Ok st' (b, x') /\ ~ contactSolution 3 eG eg [1 / 2] x'.
Proof. exact (conj (fun n P mus g x H => overload_throw app sol n P mus g L st x H) (conj (fun n P mus g x st' b x' H => overload_same app sol n P mus g L st x st' b x' H) (overload_witness app sol L st))). Qed.
Print Assumptions C73_overload_refuted.
