# Formal model of stack-of-tasks/pinocchio (3.5.0) in Rocq

## What is modelled, and how

The model is a set of small total Gallina functions, one per C++ function, each
carrying the file and lines it models (all paths relative to
`/repo/include/pinocchio`).

* **Scalars.** `Scalar` (double) is modelled by Coq's real numbers `R`:
  arithmetic is exact, there are no NaN/Inf, no rounding.  `NumTraits::epsilon`
  is an explicit positive parameter `eps`, so the thresholds (Taylor branches,
  `max(mass, eps)`) are in the model.  A division whose divisor can vanish is
  guarded: the theorem carries the hypothesis, or the function returns an
  explicit failure value.
* **Fixed size vectors/matrices** are records with named components (`V3`, `M3`,
  `SE3`, `Motion`, `Force`, `Sym3`, `Inertia`); dynamic vectors and matrices are
  functions `nat -> R`, `nat -> nat -> R` together with their sizes, or lists
  when size is what the property is about.
* **std::vector** fields of `Model` are lists with `push_back` = `++ [x]`.
  Out-of-range access is an explicit undefined-behaviour outcome where the C++
  has no check.
* **C++ exceptions** (`PINOCCHIO_CHECK_INPUT_ARGUMENT`, `PINOCCHIO_THROW`) are an
  explicit error outcome; `assert` is treated as compiled out (release build).
* **Multibody algorithms** are modelled as the imperative passes they are: a
  `Data` record of arrays, a forward fold over joints `1..njoints-1`, a backward
  fold `njoints-1..1`, reading and writing the same fields in the same order.
  Theorems are for every tree (`parents[i] < i`), every size, every previous
  content of `Data`.
* **Joints** are an inductive type with one constructor per joint class, with
  concrete `calc` functions; algorithms call `calc`.
* **Concurrency** (OpenMP batch loops): a schedule is an arbitrary interleaving
  of the per-column steps over per-thread data; the theorem quantifies over all
  schedules.

Layers and files (under `rocq/theories`): each property theorem lives in a
`Prop_*.v` file that contains only statements, `exact` proofs, satisfiability
`Example`s and `Print Assumptions`; `Spec_*.v` files hold the small independent
specifications; the other files hold model and proofs.

## Plan per property

See `MANIFEST.json` for the current status and theorem names.

| id | modelled / method |
|----|-------------------|
| C01-C04, C16 | records over R; identities by `ring`, orthogonality as an equation `R^T R = 1` |
| C05-C11 | packed `Sym3`, `Inertia`; compared with dense matrix specification; positivity by `nra`/sum of squares |
| C12-C15 | exp/log/quaternion/rpy with `eps` thresholds; trig identities, alternating-series bounds from the standard library |
| C17-C21 | Lie group operations as functions on lists/records; round trips and invariants |
| C22-C26 | `Model` record built by `addJoint`/`addFrame`/`appendBodyToJoint`; invariants by induction over call histories |
| C27 | fuel-free structural recursion with a termination measure; lowest common ancestor characterised by the parent relation |
| C28-C31 | forward passes; path-product specification; induction over joint index |
| C32-C35 | RNEA/CRBA/ABA passes; specification by virtual power; linearity; articulated-body invariant |
| C36-C39 | energy, centroidal, CoM, regressors derived from the same specification |
| C40 | sparse `U D U^T`; induction over columns |
| C41 | joint `calc` functions; derivatives with the standard library `derivable_pt_lim` |
| C42-C43 | geometry model edits as list functions; invariants over histories |
| C44 | projections on the cone; variational inequality |
| C45-C46 | interleaving semantics; pool resize |
| C47-C48 | `appendModel`, `buildReducedModel`, `transformJointIntoMimic` |
| C49-C50 | flags and equality operators as boolean functions; what equality does and does not compare |
| C51-C52 | random configurations as a function of an arbitrary stream of draws; tridiagonal product and inverse, Gram-Schmidt |
| C53 | frames added by the joint/body API; induction over call histories |
| C54-C55 | time variation of Jacobians and of the centroidal map: derivative (`derivable_pt_lim`) of the specification along every differentiable motion |
| C56-C59 | geometry placements, activation flags, concatenation, collision checks over an arbitrary shape-collision oracle |
| C60 | integrate/difference/neutral/normalize/... as folds over the joints of a model, for every Lie group of the library |
| C61-C62 | Lanczos and power iteration as loops with fuel = iteration count; orthogonality by induction |
| C63-C65 | Coriolis matrix; partial derivatives of inverse dynamics, gravity and static torque, specified by differentiable motions |
| C66-C67 | computeMinverse (both overloads), computeABADerivatives (four overloads): product with the mass matrix, implicit-function identity |
| C68-C71 | partial derivatives of joint, point and frame velocity/acceleration, kinematic Hessians |
| C72-C73 | PGS and ADMM contact solvers: loop invariants, fixed points = Coulomb's law |
| C74 | computeAllTerms: one forward and one backward pass, each field compared with the algorithm that computes it alone |
| C75 | forwardDynamics, impulseDynamics, KKT inverse over the sparse factorisation: linear algebra on any number of constraints, dense LLT solve as a parameter |
| C76 | Jexp3, Jlog3, Hlog3, Jexp3CoeffWise: derivative of exp along any curve by real analysis (at the origin by squeezing), polynomials in [w] for the inverse, Taylor bounds for the series branches, two refutations |
| C77-C78 | log3 and log6 of matrices and placements, Jexp6, Jlog6: every rotation is an exponential (via its quaternion), the three zones of log3 with their error bounds, rates along moving rotations and placements |
| C79 | dIntegrate, dDifference, dIntegrateTransport of every group and their loops over joints: SO(3) and SE(3) through the rates of C76-C78 and the twist of a product of placements, SE(2) embedded in SE(3) (dIntegrate) or by the derivative of its explicit inverse (dDifference), products by induction, models by the tiling of the coordinates |
| C80 | computeSupportedInertiaByFrame and computeSupportedForceByFrame: the loop over later frames collects exactly the frames carried by the given one (induction on the frame index), sums of inertias through their momentum maps, the force from the RNEA row invariant; two refutations (frames of the universe, stale data after rnea alone) |
| C81 | jacobianSubtreeCenterOfMass and getJacobianSubtreeCenterOfMass: backward invariant over the joints of the subtree (masses and weighted centres of the part done), walk to the root as a sum over ancestors, derivative of the subtree centre of mass of C38; columns of the get function one by one from unit velocities; a refutation (data.J of the other joints) |
| C82 | getCenterOfMassVelocityDerivatives: derivative of the velocity of each body centre from C68, sums exchanged between bodies and joints, columns identified with the effect of one joint on the bodies it carries; a refutation for joints whose axes move |
| C83 | RigidConstraintModel::init as two climbs to the common joint; the marked columns are identified with paths in the tree; getConstraintJacobian times v from the columns of C19 and the twist of the two frames; stacking by induction on the list; a refutation for the empty spans that init rotates |
| C84 | computeContactImpulses as a loop over vectors with run-time sizes; variational inequality of the weighted projection, fixed points against Coulomb's law, invariant of the loop; contactInverseDynamics from the virtual power of external forces (C33) and the rows of C83; refutations for the ignored correction, the missing guess and contacts between two joints |
| C85 | checkData over the sizes and integer tables of a Data, with undefined reads; subtrees as intervals of joint numbers; equivalence with depth-first numbering for new Data and with equality of trees for the Data of another model; refutations for wrong tables and mimic joints |
| C86 | operators as records with the factorised matrix and the mutable fields; lists of calls; invariant: the factorised matrix and the incremental one equal D + diag(last damping); reindexing of sums by permutations; the factorisation is a parameter with a contract, realised by elimInv; refutation for the natural ordering |
| C87 | velocity of every point and moment at every point as the meaning of coordinates; uniqueness; coherence follows from uniqueness; agreement with the queries of the kinematics; refutation for classical accelerations in WORLD |
| C88 | fold over the joints; equality of the queries, frame condition on every other field, staleness of local relative placements |
| C89 | link trees as a nested inductive, the visitor operations on top of the model of Model.v; traversal shown equal to a fold over the edges, invariant on frames, joints and attached bodies by induction on the edges |
| C90 | the switch over joint types and the recognition of the axis as functions; Rodrigues formula for the chosen joint; sizes and values of the limits; counterexample for planar joints |
| C91 | tags as lists, the configuration as a function of the index; disjointness of joint ranges from the well-formedness of the model, induction on the tags; counterexamples for repeated names and unaligned continuous joints |
| C92 | the three parameter vectors as lists, tags as a list; one tag changes one velocity index, ranges of joints are disjoint by well-formedness, induction on the tags |

When the code does not satisfy a property, the property stays listed and a theorem
with suffix `_refuted` gives a machine-checked counterexample on the model,
together with the strongest version that does hold.

## Coverage of the source

Each model file names its source in its first comment and every definition cites lines.

| source (under `include/pinocchio`) | model file |
|---|---|
| spatial/se3*, motion*, force*, skew.hpp, act-on-set.hxx | Vec3, Spatial |
| spatial/symmetric3.hpp, inertia.hpp | Inertia |
| spatial/explog*.hpp, log.hxx (exp3, log3, exp6, log6) | ExpLog |
| spatial/explog*.hpp, log.hxx (Jexp3, Jlog3, Hlog3, Jexp3CoeffWise) | ExpJac |
| spatial/log.hxx, explog.hpp (log3, log6, Jlog6, Jexp6 on matrices and placements) | LogMat |
| math/quaternion.hpp, rpy.hxx, rotation.hpp | Rot |
| math/tridiagonal-matrix.hpp, gram-schmidt, lanczos, eigenvalues | Tri, Lanczos |
| multibody/joint/* (calc, calc_aba, limits, mimic) | Joints, Aba |
| multibody/model.hpp/.hxx, frame.hpp, data.hxx tables | Model, ModelTree, ModelEq, Data, Crba, Jacobian, KinHess |
| multibody/liegroup/* (configuration functions) | LieGroup |
| multibody/liegroup/* and algorithm/joint-configuration.hxx (dIntegrate, dDifference, dIntegrateTransport) | LieDer |
| algorithm/frames.hxx (computeSupportedInertiaByFrame, computeSupportedForceByFrame) | Supported |
| algorithm/center-of-mass.hxx (336-539: subtree Jacobians) | SubCom |
| algorithm/center-of-mass-derivatives.hxx | ComDer |
| algorithm/contact-info.hpp (RigidConstraintModel: patterns and size), contact-jacobian.hxx | Constraint |
| algorithm/contact-inverse-dynamics.hpp | ContactInv |
| algorithm/check-data.hxx, check-model.hxx, default-check.hpp; sizes and tables of the constructor of Data | CheckData |
| algorithm/delassus-operator-dense.hpp, delassus-operator-sparse.hpp (one column at a time; Eigen factorisations as parameters; computeLargestEigenValue is not modelled) | Delassus |
| algorithm/utils/motion.hpp, force.hpp | RefFrames |
| algorithm/copy.hpp | CopyData |
| src/parsers/urdf/model.cpp (parseTree, parseRootTree), parsers/urdf/model.hxx (visitor, choice of the joint model; without mimic tags) | Urdf, UrdfJoint |
| parsers/srdf.hxx (reference configurations; not the XML reader and collision pairs) | Srdf |
| parsers/srdf.hxx (rotor parameters; not the file name and the XML reader) | SrdfRotor |
| multibody/geometry*, algorithm/geometry.hxx, collision/* bookkeeping | Geometry |
| multibody/pool, algorithm/parallel | Parallel |
| algorithm/kinematics, frames, jacobian, com, energy, centroidal, compute-all-terms | Kinematics, Jacobian, Com, Centroidal, Dccrba, AllTerms |
| algorithm/rnea, crba, aba, cholesky, regressor | Rnea, Coriolis, Crba, Aba, Minverse, Cholesky, Regressor |
| algorithm/rnea-, aba-, kinematics-, frames-derivatives | RneaDer, AbaDer, KinDer, KinHess (with DataX) |
| algorithm/model.hxx (appendModel, buildReducedModel, mimic) | Append, Reduce, Mimic |
| algorithm/contact-dynamics.hxx | ContactDyn |
| algorithm/constraints/coulomb-friction-cone.hpp, pgs-solver, admm-solver | Cone, Contact |

Recurring hypotheses: `Built eps m` (the model was built by the API), `validModel`,
`noMimic`, `noRigidJoint` (no joint with zero degrees of freedom), `fixedAxes` (the motion subspace of
every joint is constant; this is where the derivative algorithms of the library are right and where
the `_moving_axes_refuted` theorems show that they are not).

## Trusted base

* Coq 8.16.1 kernel (and `coqchk`).
* Axioms of the standard library reals, as printed by `Print Assumptions` under
  each property theorem: `ClassicalDedekindReals.sig_forall_dec`,
  `ClassicalDedekindReals.sig_not_dec`,
  `FunctionalExtensionality.functional_extensionality_dep`, and
  `Classical_Prop.classic` where trigonometry/analysis is used.  No axioms are added.
* The reading of the C++ into Gallina (comments cite lines).

## Not modelled

Floating-point rounding, NaN/Inf propagation, templates on other scalar types
(CppAD, Casadi), Eigen aliasing/alignments, expression templates, Python
bindings, URDF/SDF/MJCF XML reading (for URDF the traversal of the link tree is modelled, C89), hpp-fcl geometry queries, broad phase managers, Boost
serialization formats, memory allocation.  Algorithms not modelled: constrained
dynamics (contact-cholesky, constrained-dynamics, proximal, impulse, loop
constraints and their derivatives, apart from the constraint Jacobians of C83), the Delassus operators of the contact Cholesky decomposition, quaternion
log6 beyond C13, integrateCoeffWiseJacobian and interpolation Jacobians of the Lie groups,
centroidal derivatives, second-order RNEA derivatives,
code generation, sample models, visitors.
