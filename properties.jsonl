{"id": "C01", "title": "SE3 is a group acting on points", "statement": "Composition of rigid placements is associative, Identity is neutral on both sides, inverse() undoes a placement on both sides whenever its rotation is orthogonal, composing placements composes their effect on points, actInv undoes act, and toHomogeneousMatrix maps composition to the 4x4 matrix product.", "quantifier": "all placements (orthogonal rotation where an inverse is involved) and all points", "why_tests_cant": "identities over a continuum of rotations and translations; a test samples finitely many and cannot see an error in an unsampled entry combination", "anchors": ["include/pinocchio/spatial/se3-tpl.hpp: SE3Tpl::inverse, act_impl, actInv_impl, toHomogeneousMatrix_impl, Identity"]}
{"id": "C02", "title": "Action matrices agree with the action on motions and forces", "statement": "toActionMatrix()*v equals act(v) for every motion v, toActionMatrixInverse()*v equals actInv(v), toDualActionMatrix()*f equals act(f) for every force f; act is a group action (composition, identity) and actInv is its inverse.", "quantifier": "all placements, motions and forces", "why_tests_cant": "universally quantified algebraic identities over real components", "anchors": ["include/pinocchio/spatial/se3-tpl.hpp: toActionMatrix_impl, toActionMatrixInverse_impl, toDualActionMatrix_impl", "include/pinocchio/spatial/motion-dense.hpp: se3Action_impl, se3ActionInverse_impl", "include/pinocchio/spatial/force-dense.hpp: se3Action_impl, se3ActionInverse_impl"]}
{"id": "C03", "title": "Power is frame independent and motion/force cross products are dual", "statement": "The pairing of a motion with a force is unchanged when both are moved by the same rigid placement, and <m, v.cross(f)> = -<v.cross(m), f> for all motions v, m and forces f; the 6x6 matrices of v. and of v* are minus transposes of one another.", "quantifier": "all placements with orthogonal rotation, all motions and forces", "why_tests_cant": "duality must hold for all 12 real components at once", "anchors": ["include/pinocchio/spatial/motion-dense.hpp: dot, cross, toActionMatrix_impl, toDualActionMatrix_impl", "include/pinocchio/spatial/force-dense.hpp: dot, motionAction"]}
{"id": "C04", "title": "The motion cross product is a Lie bracket preserved by changes of frame", "statement": "v.cross(v)=0, the product is antisymmetric, satisfies the Jacobi identity, and M.act(v.cross(m)) = M.act(v).cross(M.act(m)); likewise M.act(v.cross(f)) = M.act(v).cross(M.act(f)) for forces.", "quantifier": "all motions, forces, and all placements with proper orthogonal rotation", "why_tests_cant": "identities over 18 or more real variables", "anchors": ["include/pinocchio/spatial/motion-dense.hpp: motionAction", "include/pinocchio/spatial/force-dense.hpp: motionAction"]}
{"id": "C05", "title": "Symmetric3 operations equal the dense 3x3 operations", "statement": "Each compact symmetric-matrix operation (products with vectors, rotate, skew squares, quadratic form, vxs/svx, inverse, sums, scaling) returns exactly what the dense 3x3 formula returns; rotate(R) is R S R^T for orthogonal R and preserves trace and positive semi-definiteness.", "quantifier": "all symmetric matrices, vectors, scalars and orthogonal matrices", "why_tests_cant": "the packed formulas are optimised and hand expanded; only a symbolic argument covers all inputs", "anchors": ["include/pinocchio/spatial/symmetric3.hpp: Symmetric3Tpl"]}
{"id": "C06", "title": "Spatial inertia times motion is the 6x6 matrix product, symmetric and non-negative", "statement": "inertia*v equals inertia.matrix()*v, the pairing <w, Y v> is symmetric, vtiv(v) = <v, Y v>, and for non-negative mass and positive semidefinite rotational inertia vtiv(v) >= 0 for every v, and > 0 for v<>0 when both are strictly positive.", "quantifier": "all inertias and motions", "why_tests_cant": "non-negativity and symmetry over all reals cannot be sampled", "anchors": ["include/pinocchio/spatial/inertia.hpp: __mult__, matrix_impl, vtiv_impl"]}
{"id": "C07", "title": "Spatial inertia transforms consistently with motions and forces", "statement": "M.act(Y)*M.act(v) = M.act(Y*v), actInv undoes act, act is a group action on inertias, and the kinetic energy vtiv is unchanged by a simultaneous change of frame.", "quantifier": "all placements with orthogonal rotation, inertias, motions", "why_tests_cant": "real identities in 22 variables", "anchors": ["include/pinocchio/spatial/inertia.hpp: se3Action_impl, se3ActionInverse_impl"]}
{"id": "C08", "title": "Adding bodies adds their spatial inertias", "statement": "The matrix of Y1+Y2 is the sum of the matrices whenever the total mass is at least machine epsilon (or both masses vanish); += agrees with +, and Y1-Y2 inverts the addition when the remaining mass is not smaller than epsilon; addition is then commutative and associative.", "quantifier": "all pairs/triples of inertias in the stated mass range", "why_tests_cant": "the centre-of-mass reweighting involves a division and a max with epsilon; the boundary is a threshold over reals", "anchors": ["include/pinocchio/spatial/inertia.hpp: __plus__, __pequ__, __minus__, __mequ__"]}
{"id": "C09", "title": "Inertia derivative operators", "statement": "vxi(v,Y) is the matrix of the force cross product by v after Y, ivx(v,Y) the matrix of Y after the motion cross product by v, variation(v) = vxi - ivx, and vxiv(v) = v x* (Y v).", "quantifier": "all motions and inertias", "why_tests_cant": "hand expanded 6x6 blocks; identities over 16 reals", "anchors": ["include/pinocchio/spatial/inertia.hpp: variation, vxi_impl, ivx_impl, vxiv_impl"]}
{"id": "C10", "title": "Inertia parametrisations round-trip", "statement": "FromDynamicParameters(toDynamicParameters()) is the identity on inertias of non-zero mass, and toDynamicParameters after FromDynamicParameters is the identity on parameter vectors of non-zero mass; the pseudo-inertia and log-Cholesky conversions agree with the dynamic parameters and a log-Cholesky vector always yields positive mass.", "quantifier": "all inertias / parameter vectors with non-zero mass, all log-Cholesky vectors", "why_tests_cant": "round trips over the reals", "anchors": ["include/pinocchio/spatial/inertia.hpp: toDynamicParameters, FromDynamicParameters, PseudoInertiaTpl, LogCholeskyParametersTpl"]}
{"id": "C11", "title": "Factory inertias of solids are physically valid", "statement": "FromSphere, FromEllipsoid, FromCylinder, FromBox and FromCapsule with positive mass and dimensions return an inertia of that mass, centred, whose rotational part is positive definite and satisfies the triangle inequalities.", "quantifier": "all positive masses and dimensions", "why_tests_cant": "inequalities over real parameters", "anchors": ["include/pinocchio/spatial/inertia.hpp: FromSphere, FromEllipsoid, FromCylinder, FromBox, FromCapsule"]}
{"id": "C12", "title": "exp3 yields a rotation", "statement": "For every rotation vector v, every entry of exp3(v) is within a bound proportional to machine epsilon of the exact Rodrigues rotation, on both the Taylor and the trigonometric branches, and v is an eigenvector of exp3(v) whose eigenvalue is 1 up to machine epsilon (the axis is preserved).", "quantifier": "all vectors in R^3, all positive epsilon below the model's stated threshold", "why_tests_cant": "branches depend on real thresholds; continuity at the switch and all magnitudes must hold", "anchors": ["include/pinocchio/spatial/explog.hpp: exp3", "include/pinocchio/math/taylor-expansion.hpp"]}
{"id": "C13", "title": "exp6 is consistent with exp3", "statement": "The rotation of exp6(v,w) is exp3(w), exp6(v,0) is a pure translation by v up to machine epsilon squared, exp6(v,w) is within a bound proportional to machine epsilon of the rigid motion of constant twist (v,w), and it leaves its own twist invariant up to the same bound.", "quantifier": "all twists", "why_tests_cant": "transcendental branches over all reals", "anchors": ["include/pinocchio/spatial/explog.hpp: exp6"]}
{"id": "C14", "title": "Quaternion conversions are rotations and products compose", "statement": "The rotation matrix of a unit quaternion is orthogonal with determinant one, quaternion product maps to matrix product, q and -q give the same rotation, converting a rotation matrix to a quaternion and back is the identity, exp3 on quaternions has unit norm up to an explicit bound, and firstOrderNormalize shrinks the norm error quadratically.", "quantifier": "all unit quaternions / all quaternions near unit norm", "why_tests_cant": "identities and error bounds over reals", "anchors": ["include/pinocchio/math/quaternion.hpp: firstOrderNormalize", "include/pinocchio/spatial/explog-quaternion.hpp: exp3"]}
{"id": "C15", "title": "Roll-pitch-yaw conversions", "statement": "rpyToMatrix(r,p,y) = Rz(y)Ry(p)Rx(r) is a rotation, its Jacobians map angle rates to angular velocity (local and world versions related by the rotation), and computeRpyJacobianInverse inverts the Jacobian whenever cos(p) <> 0.", "quantifier": "all angle triples", "why_tests_cant": "trigonometric identities over all reals", "anchors": ["include/pinocchio/math/rpy.hxx: rpyToMatrix, computeRpyJacobian, computeRpyJacobianInverse"]}
{"id": "C16", "title": "Skew and cross-product helpers", "statement": "skew(u)*v = u x v, unSkew inverts skew, alphaSkew and skewSquare are the scaled skew and the product of skews, and addSkew adds skew(v).", "quantifier": "all vectors, scalars", "why_tests_cant": "identities over reals", "anchors": ["include/pinocchio/spatial/skew.hpp"]}
{"id": "C17", "title": "Vector-space joints: integrate and difference are inverse", "statement": "On R^n: difference(q, integrate(q,v)) = v, integrate(q, difference(q,q')) = q', interpolate hits both end points, and squaredDistance vanishes only on equal configurations.", "quantifier": "all dimensions, configurations, velocities", "why_tests_cant": "unbounded dimension and real inputs", "anchors": ["include/pinocchio/multibody/liegroup/vector-space.hpp", "include/pinocchio/multibody/liegroup/liegroup-base.hxx"]}
{"id": "C18", "title": "SO(2): integrate keeps unit norm and is inverted by difference", "statement": "integrate(q,v) of a unit configuration is the unit configuration rotated by v; difference(q, integrate(q,v)) = v for |v| < pi away from the branch threshold; integrate with 0 is the identity and integrate composes additively.", "quantifier": "all unit complex configurations and all velocities", "why_tests_cant": "angle branches over reals", "anchors": ["include/pinocchio/multibody/liegroup/special-orthogonal.hpp: SpecialOrthogonalOperationTpl<2>"]}
{"id": "C19", "title": "Interpolation reaches its end points", "statement": "interpolate(q0,q1,0) is q0 and interpolate(q0,q1,1) is the same configuration as q1 for every Lie group of the library.", "quantifier": "all pairs of valid configurations", "why_tests_cant": "must hold for every pair including antipodal ones, which tests do not sample", "anchors": ["include/pinocchio/multibody/liegroup/special-orthogonal.hpp: interpolate_impl", "include/pinocchio/multibody/liegroup/liegroup-base.hxx: interpolate"]}
{"id": "C20", "title": "SE(2) integrate/difference", "statement": "SE(2) integration of a unit configuration stays on the group, integrating zero is the identity, and the planar exponential/logarithm agree with the rigid-body flow of the twist.", "quantifier": "all unit configurations and tangent vectors", "why_tests_cant": "trigonometric branch thresholds over reals", "anchors": ["include/pinocchio/multibody/liegroup/special-euclidean.hpp: SpecialEuclideanOperationTpl<2>"]}
{"id": "C21", "title": "SO(3)/SE(3) integrate stays on the group", "statement": "Integrating a unit quaternion configuration along any tangent vector returns a configuration whose norm error is bounded by the square of the exponential's norm error; integrating zero returns the same configuration; translation part is advanced by the rotated exponential translation.", "quantifier": "all unit configurations and tangent vectors", "why_tests_cant": "unbounded sequences of integrations over reals", "anchors": ["include/pinocchio/multibody/liegroup/special-orthogonal.hpp: SpecialOrthogonalOperationTpl<3>", "include/pinocchio/multibody/liegroup/special-euclidean.hpp: SpecialEuclideanOperationTpl<3>"]}
{"id": "C22", "title": "Model construction invariants", "statement": "After any sequence of successful addJoint calls on an empty model: every joint's parent has a smaller index, all per-joint arrays have length njoints, joint index ranges in q and v are consecutive, disjoint and cover exactly 0..nq-1 and 0..nv-1, and per-dof arrays have length nv (nq).", "quantifier": "all histories of addJoint calls with arbitrary parents and joint types", "why_tests_cant": "unbounded call histories", "anchors": ["include/pinocchio/multibody/model.hxx: addJoint", "include/pinocchio/multibody/model.hpp: ModelTpl"]}
{"id": "C23", "title": "Supports, subtrees and children describe the same tree", "statement": "After any construction history supports[j] is exactly the path from the universe to j; for i > 0 subtrees[i] lists exactly the joints whose path goes through i (i first), subtrees[0] lists every joint except the universe; children[i] lists exactly the joints whose parent is i; mimicking_joints, mimicked_joints and mimic_joint_supports list exactly the mimic joints (on the path).", "quantifier": "all histories of addJoint calls", "why_tests_cant": "unbounded trees", "anchors": ["include/pinocchio/multibody/model.hxx: addJoint, addJointIndexToParentSubtrees"]}
{"id": "C24", "title": "Rejected construction calls leave the model unchanged", "statement": "addJoint with an out-of-range parent or wrongly sized limits, and addFrame with an out-of-range parent joint, fail and change nothing.", "quantifier": "all models and all invalid arguments", "why_tests_cant": "every failure point of every history", "anchors": ["include/pinocchio/multibody/model.hxx: addJoint, addFrame"]}
{"id": "C25", "title": "Name lookup", "statement": "getJointId returns the smallest index carrying the name or njoints, existJointName iff some joint carries it; getFrameId returns the unique frame with that name and type, nframes if none, and fails if several; existFrame agrees with it; adding a frame with an existing name and type returns the existing index and changes nothing.", "quantifier": "all models, names, type masks", "why_tests_cant": "arbitrary name collisions", "anchors": ["include/pinocchio/multibody/model.hxx: getJointId, existJointName, getFrameId, existFrame, addFrame"]}
{"id": "C26", "title": "Attaching bodies and frames accounts for inertia", "statement": "appendBodyToJoint adds exactly the body's inertia, moved to the joint frame, to that joint and to no other; addFrame with append_inertia adds the frame's inertia moved by the frame placement; total mass after any history is the sum of the attached masses.", "quantifier": "all histories of attachments", "why_tests_cant": "unbounded histories", "anchors": ["include/pinocchio/multibody/model.hxx: appendBodyToJoint, addFrame"]}
{"id": "C27", "title": "Lowest common ancestor", "statement": "findCommonAncestor terminates and returns the deepest joint that lies on both supports, with its positions in the two supports.", "quantifier": "all trees built by the API and all pairs of joints", "why_tests_cant": "unbounded depth", "anchors": ["include/pinocchio/algorithm/model.hxx: findCommonAncestor"]}
{"id": "C28", "title": "Forward kinematics is the product of placements along the support", "statement": "After forwardKinematics(q), oMi of every joint is the ordered product of jointPlacement*jointTransform along its support path, independently of what the data contained before; the first and second order versions produce the same placements.", "quantifier": "all trees, all configurations, all previous data contents", "why_tests_cant": "unbounded trees and stale data histories", "anchors": ["include/pinocchio/algorithm/kinematics.hxx: forwardKinematics, updateGlobalPlacements"]}
{"id": "C29", "title": "Joint velocities and accelerations are Jacobian maps", "statement": "After first-order kinematics the spatial velocity of joint i is the sum over its support of the joint twists moved to its frame; getVelocity in LOCAL, WORLD and LOCAL_WORLD_ALIGNED are related by the placement; relative placements obey getRelativePlacement(i,j)*getRelativePlacement(j,i)=Identity.", "quantifier": "all trees, configurations, velocities, reference frames", "why_tests_cant": "unbounded trees", "anchors": ["include/pinocchio/algorithm/kinematics.hxx: getVelocity, getAcceleration, getClassicalAcceleration, getRelativePlacement"]}
{"id": "C30", "title": "Joint Jacobians", "statement": "getJointJacobian after computeJointJacobians yields, for each reference frame, the matrix J with J*v equal to getVelocity of that joint for every velocity v; columns of joints outside the support are untouched (zero); computeJointJacobian returns the same LOCAL matrix.", "quantifier": "all trees, configurations, joints, velocities", "why_tests_cant": "unbounded trees", "anchors": ["include/pinocchio/algorithm/jacobian.hxx: computeJointJacobians, getJointJacobian, translateJointJacobian, computeJointJacobian"]}
{"id": "C31", "title": "Frame placements, velocities and Jacobians follow the parent joint", "statement": "updateFramePlacement(s) gives oMf = oMi*placement; frame velocity, acceleration and frame Jacobian are those of the parent joint moved by the frame placement in every reference frame, and J_frame*v is the frame velocity.", "quantifier": "all trees, frames, reference frames", "why_tests_cant": "unbounded trees", "anchors": ["include/pinocchio/algorithm/frames.hxx"]}
{"id": "C32", "title": "RNEA computes inverse dynamics", "statement": "For every virtual joint velocity w, the torque returned by rnea(q,v,a) satisfies tau.w = sum over bodies of <I a_i + v_i x* I v_i, V_i(w)> + sum armature*a*w, where accelerations include gravity; with external forces their virtual power is subtracted.", "quantifier": "all trees (including mimic joints), configurations, velocities, accelerations, external forces, virtual velocities", "why_tests_cant": "unbounded trees, real inputs", "anchors": ["include/pinocchio/algorithm/rnea.hxx: rnea, RneaForwardStep, RneaBackwardStep"]}
{"id": "C33", "title": "RNEA is affine in the acceleration", "statement": "rnea(q,v,a) = M(q) a + nonLinearEffects(q,v) where M is the matrix of the kinetic energy (with armature); nonLinearEffects(q,0) = computeGeneralizedGravity(q); rnea with external forces differs by -J^T fext.", "quantifier": "all trees, configurations, velocities, accelerations", "why_tests_cant": "unbounded trees", "anchors": ["include/pinocchio/algorithm/rnea.hxx: nonLinearEffects, computeGeneralizedGravity, computeStaticTorque"]}
{"id": "C34", "title": "CRBA computes the joint-space inertia matrix", "statement": "For depth-first numbered trees without mimic joints the upper triangle of data.M after crba, in either convention, equals the matrix M with w.M.w' = sum over bodies of <I_i V_i(w), V_i(w')> plus armature on the diagonal, for every pair of degrees of freedom on one branch; M is zero for the other pairs, whose entries are not written. The completed matrix is symmetric positive semidefinite, and positive definite when all bodies are solid and no joint is singular. CRBAChecker accepts exactly the depth-first numbered trees.", "quantifier": "all depth-first numbered trees without mimic joints, configurations and previous data contents", "why_tests_cant": "unbounded trees", "anchors": ["include/pinocchio/algorithm/crba.hxx: crbaLocalConvention, crbaWorldConvention", "include/pinocchio/multibody/data.hxx: computeLastChild"]}
{"id": "C35", "title": "ABA inverts RNEA", "statement": "rnea(q,v,aba(q,v,tau)) = tau in both conventions, and with external forces, whenever the articulated joint inertias are invertible, in particular when all bodies have positive definite inertia.", "quantifier": "all trees without mimic joints, all configurations, velocities, torques, external forces", "why_tests_cant": "unbounded trees", "anchors": ["include/pinocchio/algorithm/aba.hxx: abaWorldConvention, abaLocalConvention"]}
{"id": "C36", "title": "Kinetic, potential and mechanical energy", "statement": "computeKineticEnergy returns half v.M(q).v (armature included or not as documented), potential energy is -sum m g.com, and mechanical energy is their sum.", "quantifier": "all trees, configurations, velocities", "why_tests_cant": "unbounded trees", "anchors": ["include/pinocchio/algorithm/energy.hxx"]}
{"id": "C37", "title": "Centroidal momentum", "statement": "computeCentroidalMomentum returns the total momentum of all bodies expressed at the centre of mass, the centroidal map times velocity gives the same momentum, and the linear part is total mass times centre-of-mass velocity.", "quantifier": "all trees, configurations, velocities", "why_tests_cant": "unbounded trees", "anchors": ["include/pinocchio/algorithm/centroidal.hxx", "include/pinocchio/algorithm/crba.hxx: crbaWorldConvention"]}
{"id": "C38", "title": "Centre of mass and its Jacobian", "statement": "centerOfMass returns the mass-weighted mean of body centres, subtree masses add up, and Jcom*v is the centre-of-mass velocity.", "quantifier": "all trees with positive total mass", "why_tests_cant": "unbounded trees", "anchors": ["include/pinocchio/algorithm/center-of-mass.hxx"]}
{"id": "C39", "title": "Regressors are exact", "statement": "bodyRegressor(v,a)*pi(Y) = Y a + v x* Y v for the dynamic parameters pi, and jointTorqueRegressor times the stacked parameters equals rnea with zero armature.", "quantifier": "all inertias, motions, trees", "why_tests_cant": "real identities, unbounded trees", "anchors": ["include/pinocchio/algorithm/regressor.hxx"]}
{"id": "C40", "title": "Sparse Cholesky factorisation", "statement": "For every tree-structured symmetric matrix with non-zero pivots, cholesky::decompose yields U unit upper triangular and D with U D U^T = M, respecting the tree sparsity; Uv, Utv, Uiv, Utiv, Mv, UDUtv and solve perform the corresponding products and inverses.", "quantifier": "all depth-first numbered trees, all matrices with the tree sparsity, all vectors", "why_tests_cant": "unbounded size", "anchors": ["include/pinocchio/algorithm/cholesky.hxx"]}
{"id": "C41", "title": "Joint models: the motion subspace is the derivative of the transform", "statement": "For every joint type, calc returns a proper rigid transform M(q) (given a valid configuration), v = S(q) v_q, the derivative of M along any configuration curve is M times the hat of S v_q, and c is the derivative of S applied to v_q.", "quantifier": "all joint types, configurations, velocities", "why_tests_cant": "derivative statements over reals", "anchors": ["include/pinocchio/multibody/joint/*.hpp: calc"]}
{"id": "C42", "title": "Collision pair bookkeeping", "statement": "Collision pairs are unordered, never duplicated, never self pairs; add followed by exist is true, remove followed by exist is false, other pairs are unaffected, addAllCollisionPairs adds exactly the pairs of objects on different joints, findCollisionPair returns the pair's position; the mapping matrix agrees with the list.", "quantifier": "all histories of geometry-model edits", "why_tests_cant": "unbounded histories", "anchors": ["include/pinocchio/multibody/geometry.hxx", "include/pinocchio/multibody/geometry.hpp"]}
{"id": "C43", "title": "Removing a geometry object", "statement": "removeGeometryObject removes exactly the named object, drops the pairs that mention it and re-indexes the others so that each surviving pair still refers to the same two objects.", "quantifier": "all geometry models and histories", "why_tests_cant": "unbounded histories", "anchors": ["include/pinocchio/multibody/geometry.hxx: removeGeometryObject"]}
{"id": "C44", "title": "Coulomb friction cone projection", "statement": "project(x) lies in the cone, is the closest cone point to x, is idempotent, and the residual lies in the polar cone; same for the dual cone; isInside characterises fixed points of project.", "quantifier": "all mu >= 0 and all vectors", "why_tests_cant": "optimality over a continuum", "anchors": ["include/pinocchio/algorithm/constraints/coulomb-friction-cone.hpp"]}
{"id": "C45", "title": "Parallel batch algorithms equal the sequential ones", "statement": "rneaInParallel, abaInParallel and updateGeometry/computeCollisions batch versions return, column by column, what the sequential algorithm returns, for every assignment of columns to threads and every interleaving.", "quantifier": "all schedules, batch sizes, pool sizes", "why_tests_cant": "schedules are unbounded", "anchors": ["include/pinocchio/algorithm/parallel/rnea.hpp", "include/pinocchio/algorithm/parallel/aba.hpp", "include/pinocchio/multibody/pool/model.hpp"]}
{"id": "C46", "title": "Resizing a model pool", "statement": "After resize(n) every one of the n entries of a pool is a usable copy of the pool's model with its data.", "quantifier": "all pool sizes before and after", "why_tests_cant": "all pairs of sizes", "anchors": ["include/pinocchio/multibody/pool/model.hpp: resize"]}
{"id": "C47", "title": "appendModel and buildReducedModel preserve the mechanism", "statement": "Every joint of the inputs keeps its placement relative to its (closest kept) parent, its limits, rotor and armature parameters and its inertia in the output model, locked joints being frozen at the reference configuration; total mass is preserved.", "quantifier": "all models built by the API, all lists of locked joints", "why_tests_cant": "unbounded trees", "anchors": ["include/pinocchio/algorithm/model.hxx: appendModel, buildReducedModel"]}
{"id": "C48", "title": "Turning a joint into a mimic", "statement": "transformJointIntoMimic removes exactly that joint's coordinates, re-indexes the later joints consecutively, rejects out-of-range joints, and the resulting kinematics equals the original at q_mimic = scaling*q + offset.", "quantifier": "all models and joint pairs", "why_tests_cant": "unbounded trees", "anchors": ["include/pinocchio/algorithm/model.hxx: transformJointIntoMimic, buildMimicModel", "include/pinocchio/multibody/joint/joint-mimic.hpp"]}
{"id": "C49", "title": "Configuration-limit flags match the configuration layout", "statement": "hasConfigurationLimit() has one flag per configuration coordinate (nq) and hasConfigurationLimitInTangent() one per velocity coordinate (nv).", "quantifier": "all models", "why_tests_cant": "all combinations of joint types", "anchors": ["include/pinocchio/multibody/model.hxx: hasConfigurationLimit", "include/pinocchio/multibody/joint/joint-helical.hpp", "include/pinocchio/multibody/joint/joint-mimic.hpp"]}
{"id": "C50", "title": "Model equality distinguishes different mechanisms", "statement": "operator== on models is reflexive and symmetric, and two models that compare equal have the same joints, parameters and reference configurations.", "quantifier": "all pairs of models", "why_tests_cant": "quantifies over pairs of models", "anchors": ["include/pinocchio/multibody/model.hxx: operator==", "include/pinocchio/multibody/joint/joint-model-base.hpp: isEqual"]}
{"id": "C51", "title": "Random configurations respect limits", "statement": "randomConfiguration between finite limits returns a configuration within them for every random stream, fails on infinite limits, and normalises group-valued parts.", "quantifier": "all random streams, all finite limits", "why_tests_cant": "all streams", "anchors": ["include/pinocchio/multibody/liegroup/vector-space.hpp: randomConfiguration_impl"]}
{"id": "C52", "title": "Tridiagonal and orthonormalisation utilities", "statement": "The symmetric tridiagonal matrix times a vector/matrix equals the dense product, and orthonormalisation of a vector against an orthonormal basis returns a vector orthogonal to the basis.", "quantifier": "all sizes", "why_tests_cant": "unbounded size", "anchors": ["include/pinocchio/math/tridiagonal-matrix.hpp", "include/pinocchio/math/gram-schmidt-orthonormalisation.hpp"]}
{"id": "C53", "title": "Joint frames hang from the parent joint's frame", "statement": "addJointFrame(j) without an explicit previous frame registers a JOINT frame of that name with identity placement on joint j, whose parent frame is an existing, earlier frame carrying the parent joint's name.", "quantifier": "all built models and joints", "why_tests_cant": "all construction orders of joints and frames", "anchors": ["include/pinocchio/multibody/model.hxx: addJointFrame, getFrameId"]}
{"id": "C54", "title": "Time variation of the Jacobians", "statement": "Along every trajectory of the configuration, the matrix returned by getJointJacobianTimeVariation (getFrameJacobianTimeVariation) after computeJointJacobiansTimeVariation(q, v) is the time derivative of the joint (frame) Jacobian, in each reference frame.", "quantifier": "all trees, trajectories, joints, frames, reference frames, vectors the matrix is applied to", "why_tests_cant": "a derivative along arbitrary trajectories on unbounded trees; tests compare finite differences on a few models", "anchors": ["include/pinocchio/algorithm/jacobian.hxx: computeJointJacobiansTimeVariation, getJointJacobianTimeVariation", "include/pinocchio/algorithm/frames.hxx: getFrameJacobianTimeVariation"]}
{"id": "C55", "title": "Time variation of the centroidal momentum matrix", "statement": "dccrba(q, v) fills dAg so that the rate of the centroidal momentum is dhg = Ag a + dAg v for every acceleration a, and leaves Ag, com and the centroidal inertia as ccrba does; computeCentroidalMapTimeVariation gives the same dAg.", "quantifier": "all trees, configurations, velocities, accelerations", "why_tests_cant": "a relation between a matrix, a velocity and a derivative on unbounded trees", "anchors": ["include/pinocchio/algorithm/centroidal.hxx: dccrba, computeCentroidalMapTimeVariation"]}
{"id": "C56", "title": "Placements of the geometry objects", "statement": "After forwardKinematics(q), updateGeometryPlacements gives every geometry object the placement of its parent joint composed with its own placement in that joint; objects attached to the universe keep their own placement.", "quantifier": "all models, geometry models and configurations", "why_tests_cant": "unbounded models and geometry lists", "anchors": ["include/pinocchio/algorithm/geometry.hxx: updateGeometryPlacements"]}
{"id": "C57", "title": "Activation flags of collision pairs", "statement": "A new GeometryData has one flag per pair, all true; activate/deactivate of one pair, of all pairs, of the pairs of one object, or by a map, sets exactly the flags it names and leaves the others and the placements untouched; indexes out of range throw.", "quantifier": "all geometry models, flags, indexes and maps", "why_tests_cant": "unbounded lists of pairs", "anchors": ["include/pinocchio/multibody/geometry.hxx: activateCollisionPair, setActiveCollisionPairs, setGeometryCollisionStatus"]}
{"id": "C58", "title": "Concatenation of geometry models", "statement": "appendGeometryModel(g, h) lists the objects of g then those of h, its pairs are those of g, those of h re-indexed, and every pair across the two on different joints; the pair lookups keep working on the result.", "quantifier": "all pairs of geometry models with any history", "why_tests_cant": "unbounded histories", "anchors": ["include/pinocchio/algorithm/geometry.hxx: appendGeometryModel"]}
{"id": "C59", "title": "Collision checks of a configuration", "statement": "computeCollisions returns true if and only if some active pair whose two objects are enabled is in collision at the placements given by the kinematics; the pair it reports is the first such pair; without early stop every active pair receives its own result.", "quantifier": "all models, geometry models, activation flags and configurations", "why_tests_cant": "unbounded numbers of objects and pairs, early-stop logic", "anchors": ["include/pinocchio/collision/collision.hxx: computeCollisions"]}
{"id": "C60", "title": "Configuration functions act joint by joint", "statement": "integrate, interpolate, difference, neutral and normalize of a model apply the operation of each joint's group to that joint's coordinates, write every coordinate and nothing else, also through composite joints; the difference integrated reaches the second configuration; isNormalized accepts exactly the valid configurations; the squared distances per joint add up to the squared norm of the difference and vanish only on equal configurations.", "quantifier": "all models built through the API, all configurations and velocities, all previous contents of the outputs", "why_tests_cant": "all model trees and joint combinations, real inputs", "anchors": ["include/pinocchio/algorithm/joint-configuration.hxx", "include/pinocchio/multibody/liegroup/liegroup-algo.hxx"]}
{"id": "C61", "title": "Lanczos decomposition", "statement": "For a symmetric matrix A and a decomposition size s no larger than its number of rows, LanczosDecomposition returns orthonormal columns Qs in which A is the tridiagonal matrix Ts; the residual of a complete decomposition is zero; rank() is the number of columns built; wrong sizes are rejected.", "quantifier": "all symmetric matrices, sizes, tolerances and previous contents of the storage", "why_tests_cant": "unbounded size; the early exit depends on the spectrum", "anchors": ["include/pinocchio/math/lanczos-decomposition.hpp:LanczosDecompositionTpl"]}
{"id": "C62", "title": "Power iteration", "statement": "PowerIterationAlgo::run never overestimates the largest eigenvalue in absolute value, improves with the number of iterations, keeps an eigenvector, and when it stops on its criterion the vector is an eigenvector up to the tolerance; lowest never underestimates the lowest eigenvalue.", "quantifier": "all matrices, initial vectors, tolerances and iteration counts", "why_tests_cant": "unbounded sizes and iteration counts", "anchors": ["include/pinocchio/math/eigenvalues.hpp:PowerIterationAlgoTpl"]}
{"id": "C63", "title": "The Coriolis matrix", "statement": "computeCoriolisMatrix returns a matrix C(q,v) with C(q,v) v = nonLinearEffects(q,v) - computeGeneralizedGravity(q), and the derivative of the mass matrix along a motion of velocity v is C + C^T, that is dM/dt - 2 C is skew-symmetric. getCoriolisMatrix called after the derivatives of the inverse dynamics returns the same matrix. Entries between dofs that share no body are left untouched.", "quantifier": "all models built by the API (no mimic joint, no joint without dof, depth-first numbering), all configurations, velocities and motions, all previous contents of Data", "why_tests_cant": "the identities are over the reals and range over all trees, configurations, velocities; tests check one random state of one model up to a tolerance", "anchors": ["include/pinocchio/algorithm/rnea.hxx:computeCoriolisMatrix", "include/pinocchio/algorithm/rnea.hxx:getCoriolisMatrix", "include/pinocchio/algorithm/rnea.hxx:CoriolisMatrixForwardStep", "include/pinocchio/algorithm/rnea.hxx:CoriolisMatrixBackwardStep"]}
{"id": "C64", "title": "Derivatives of inverse dynamics", "statement": "The matrices returned by computeRNEADerivatives are the partial derivatives of rnea: along every motion of the configuration with velocity w and every variation v', a' of the velocity and the acceleration, the torques vary with dtau_dq w + dtau_dv v' + dtau_da a', where dtau_da is given by its upper triangle and is the mass matrix with the rotor inertias. The same holds with external forces, for the overloads that write in Data and in the caller's matrices. data.tau holds the torques. Entries between dofs that share no body keep their zeros.", "quantifier": "all models built by the API (no mimic joint, depth-first numbering), all configurations, velocities, accelerations, external forces, all differentiable motions, all previous contents of Data", "why_tests_cant": "tests compare with finite differences of one random state of one model up to a tolerance; the statement is an exact derivative over all trees and states", "anchors": ["include/pinocchio/algorithm/rnea-derivatives.hxx:computeRNEADerivatives", "include/pinocchio/algorithm/rnea-derivatives.hxx:ComputeRNEADerivativesForwardStep", "include/pinocchio/algorithm/rnea-derivatives.hxx:ComputeRNEADerivativesBackwardStep"]}
{"id": "C65", "title": "Derivatives of the gravity and static torques", "statement": "computeGeneralizedGravityDerivatives (computeStaticTorqueDerivatives) returns the matrix G such that, along every motion of the configuration with velocity w, the torques returned by computeGeneralizedGravity (computeStaticTorque) vary with G w; data.g (data.tau) holds the torques; entries between dofs that share no body keep their zeros.", "quantifier": "all models built by the API (no mimic joint, no joint without dof, depth-first numbering), all configurations, external forces and differentiable motions, all previous contents of Data", "why_tests_cant": "tests compare with finite differences of one random state of one model up to a tolerance", "anchors": ["include/pinocchio/algorithm/rnea-derivatives.hxx:computeGeneralizedGravityDerivatives", "include/pinocchio/algorithm/rnea-derivatives.hxx:computeStaticTorqueDerivatives", "include/pinocchio/algorithm/rnea-derivatives.hxx:ComputeGeneralizedGravityDerivativeForwardStep", "include/pinocchio/algorithm/rnea-derivatives.hxx:ComputeGeneralizedGravityDerivativeBackwardStep"]}
{"id": "C66", "title": "computeMinverse returns the inverse of the mass matrix", "statement": "After computeMinverse(model, data, q), and after computeMinverse(model, data) called on the data of a forward dynamics call with the world convention (with or without external forces), data.Minv completed by symmetry is the inverse of the joint space inertia matrix, rotor inertias included, whatever the data held before; aba returns this matrix times the torques minus the nonlinear effects.", "quantifier": "all models built by the API without mimic joints and with depth-first numbering, all valid configurations at which the mass matrix is positive definite, all velocities, torques, external forces and previous contents of Data", "why_tests_cant": "tests compare with the numerical inverse of crba on one humanoid model at one random configuration; the row and column bookkeeping depends on the shape of the tree", "anchors": ["include/pinocchio/algorithm/aba.hxx:computeMinverse", "include/pinocchio/algorithm/aba.hxx:ComputeMinverseBackwardStep", "include/pinocchio/algorithm/aba.hxx:ComputeMinverseForwardStep2"]}
{"id": "C67", "title": "Derivatives of forward dynamics", "statement": "computeABADerivatives returns matrices ddq_dq, ddq_dv and ddq_dtau such that, along every motion of the configuration with velocity w and every variation v' of the velocities and tau' of the torques, the acceleration returned by aba varies with ddq_dq w + ddq_dv v' + ddq_dtau tau'; ddq_dtau is the inverse of the joint space inertia matrix with both triangles filled, and data.ddq holds the acceleration. The same holds with external forces and for the overloads that reuse the data filled by aba.", "quantifier": "all models built by the API (no mimic joint, no joint without dof, depth-first numbering), all states at which the mass matrix is positive definite, all differentiable motions, torques, external forces and previous contents of Data", "why_tests_cant": "tests compare with finite differences at one random state of one humanoid model up to a tolerance; the column bookkeeping depends on the shape of the tree", "anchors": ["include/pinocchio/algorithm/aba-derivatives.hxx:computeABADerivatives", "include/pinocchio/algorithm/aba-derivatives.hxx:optimized::ComputeABADerivativesForwardStep2", "include/pinocchio/algorithm/aba.hxx:aba"]}
{"id": "C68", "title": "Derivatives of joint velocities and accelerations", "statement": "After computeForwardKinematicsDerivatives(q, v, a), getJointVelocityDerivatives and getJointAccelerationDerivatives return matrices such that, along every motion of the configuration with velocity w and every variation v', a' of the velocities and accelerations, the velocity of the joint varies with v_partial_dq w + v_partial_dv v' and its spatial acceleration with a_partial_dq w + a_partial_dv v' + a_partial_da a', in each reference frame (LOCAL_WORLD_ALIGNED: at the fixed point of the world where the joint is). Columns of joints that do not carry the joint are left as the caller gave them; a joint index out of range is rejected.", "quantifier": "all models built by the API without mimic joint, all joints, valid states, differentiable motions, reference frames and previous contents of Data and of the output matrices", "why_tests_cant": "tests compare with finite differences on one humanoid model whose joints below the free flyer have one degree of freedom; the acceleration derivatives in the WORLD frame are wrong for other trees, which no test exercises", "anchors": ["include/pinocchio/algorithm/kinematics-derivatives.hxx:computeForwardKinematicsDerivatives", "include/pinocchio/algorithm/kinematics-derivatives.hxx:getJointVelocityDerivatives", "include/pinocchio/algorithm/kinematics-derivatives.hxx:getJointAccelerationDerivatives"]}
{"id": "C69", "title": "Derivatives of point velocities and classical accelerations", "statement": "After computeForwardKinematicsDerivatives(q, v, a), getPointVelocityDerivatives and getPointClassicAccelerationDerivatives return, in the LOCAL and LOCAL_WORLD_ALIGNED frames, the derivatives of the linear velocity and of the classical acceleration of a point attached to a joint with respect to q, v and a; the WORLD frame and joint indices out of range are rejected, exactly these.", "quantifier": "all models built by the API without mimic joint, all joints, placements, valid states, differentiable motions and previous contents of Data and of the output matrices", "why_tests_cant": "tests compare with finite differences at one state of one model up to a tolerance", "anchors": ["include/pinocchio/algorithm/kinematics-derivatives.hxx:getPointVelocityDerivatives", "include/pinocchio/algorithm/kinematics-derivatives.hxx:getPointClassicAccelerationDerivatives"]}
{"id": "C70", "title": "Derivatives of frame velocities and accelerations", "statement": "After computeForwardKinematicsDerivatives(q, v, a), getFrameVelocityDerivatives and getFrameAccelerationDerivatives return the derivatives of the velocity and of the spatial acceleration of a frame attached to a joint with respect to q, v and a in each reference frame; columns of joints that do not carry the frame are left unchanged.", "quantifier": "all models built by the API without mimic joint and without joint of zero dof, all joints, placements, valid states, differentiable motions, reference frames and previous contents of Data and of the output matrices", "why_tests_cant": "the second loop walks the columns through the parents_fromRow table, which depends on the shape of the tree; tests use one model", "anchors": ["include/pinocchio/algorithm/frames-derivatives.hxx:getFrameVelocityDerivatives", "include/pinocchio/algorithm/frames-derivatives.hxx:getFrameAccelerationDerivatives"]}
{"id": "C71", "title": "Kinematic Hessians are the derivatives of the Jacobians", "statement": "After computeJointKinematicHessians(q), getJointKinematicHessian returns for a joint and a reference frame a tensor whose contraction with any joint velocity is the time derivative of the joint Jacobian in that frame along any motion with this velocity (equivalently getJointJacobianTimeVariation); the entries for joints that do not carry the joint are zero.", "quantifier": "all models built by the API without mimic joint and without joint of zero dof, all joints, columns, reference frames, valid configurations, velocities, differentiable motions, previous contents of Data and of the stored Hessians", "why_tests_cant": "the loops read the row tables supports_fromRow, start_idx_v_fromRow, end_idx_v_fromRow and parents_fromRow, whose content depends on the shape of the tree; the test compares one model with finite differences whose tolerance and whose choice of joint hide the wrong entries of a multi-dof joint in the LOCAL frame", "anchors": ["include/pinocchio/algorithm/kinematics-derivatives.hxx:computeJointKinematicHessians", "include/pinocchio/algorithm/kinematics-derivatives.hxx:getJointKinematicHessian", "include/pinocchio/multibody/data.hxx:computeSupports_fromRow"]}
{"id": "C72", "title": "Projected Gauss-Seidel contact solver", "statement": "PGSContactSolver::solve throws exactly when the over-relaxation is outside ]0,2[; after any number of iterations the forces it returns lie in the friction cones; the answer is false exactly when max_it iterations were spent; forces that the last sweep left unchanged (relative residual 0) satisfy Coulomb's law at every contact for the velocities G x + g; a solution given as initial guess is returned at once with the answer true. Refuted: the answer true with a residual within the absolute precision does not imply that the forces solve the problem, because the velocity behind the residual is overwritten instead of updated.", "quantifier": "all sizes, Delassus matrices, free velocities, numbers of contacts, friction coefficients, initial guesses, precisions and iteration limits", "why_tests_cant": "real-valued inputs, unbounded number of contacts and iterations", "anchors": ["include/pinocchio/algorithm/pgs-solver.hxx: PGSContactSolverTpl::solve", "include/pinocchio/algorithm/contact-solver-base.hpp"]}
{"id": "C73", "title": "ADMM contact solver", "statement": "ADMMContactSolver::solve throws exactly when tau is outside ]0,1], mu_prox is negative or R has a negative entry; otherwise, after any number of iterations, the primal result lies in the friction cones, the dual result in the dual cones and the two are orthogonal contact by contact; the absolute residual bounds the difference of the two primal variables and the error of (G+R) x + g + s - z, and is within the precision when the answer is true; with precision 0 the answer true implies Coulomb's law; started from a solution it returns it after one iteration. Refuted: the overload documented to take and return the solution x uses x as the regularization, throws on negative entries and returns it unchanged.", "quantifier": "all sizes, Delassus operators with an exact damped solve, free velocities, friction coefficients, regularizations, penalties, parameters, initial guesses and iteration limits", "why_tests_cant": "real-valued inputs, unbounded number of contacts and iterations", "anchors": ["include/pinocchio/algorithm/admm-solver.hxx: ADMMContactSolverTpl::solve", "include/pinocchio/algorithm/admm-solver.hpp", "include/pinocchio/algorithm/contact-solver-utils.hpp"]}
{"id": "C74", "title": "computeAllTerms agrees with the algorithms it gathers", "statement": "computeAllTerms(model, data, q, v) leaves in data the placements, velocities and accelerations of forwardKinematics(q, v, 0), the Jacobians and time variations of computeJointJacobiansTimeVariation, the upper triangle of the mass matrix, nle of nonLinearEffects, the masses, centres of mass and velocities of centerOfMass with subtrees, Jcom of jacobianCenterOfMass, Ag, dAg, hg and Ig of dccrba, the three energies, and g of computeGeneralizedGravity when gravity has no angular part. dhg is the rate of the centroidal momentum at zero joint acceleration only without gravity and on data whose f[0] is zero. Refuted: g with an angular gravity; dhg under gravity; a second call with the same arguments changes dhg because f[0] is never reset.", "quantifier": "all models built by the API without mimic joint, numbered depth first, with a mass and with bodies massless or heavier than epsilon, all valid configurations, velocities and previous contents of both Data", "why_tests_cant": "the test compares one humanoid on fresh data; equality must hold for every tree and for reused data", "anchors": ["include/pinocchio/algorithm/compute-all-terms.hxx:computeAllTerms", "include/pinocchio/algorithm/compute-all-terms.hxx:CATForwardStep", "include/pinocchio/algorithm/compute-all-terms.hxx:CATBackwardStep"]}
{"id": "C75", "title": "Constrained forward dynamics, impacts and KKT matrix", "statement": "forwardDynamics(model, data, q, v, tau, J, gamma, mu) returns the only accelerations and contact forces such that M ddq + nle = tau + J^T lambda and J ddq + gamma + mu lambda = 0: rnea of the result gives tau + J^T lambda and aba under tau + J^T lambda gives the result; without damping, ddq is the acceleration nearest to the free one, in the metric of M, among all those that satisfy the constraints (Gauss). impulseDynamics returns v+ and impulses with M (v+ - v-) = J^T f and J v+ + mu f = -r J v-; it creates no kinetic energy for a restitution r in ]-1,1] and conserves it for r = 1, mu = 0. computeKKTContactDynamicMatrixInverse gives the inverse of [M J^T; J -mu I] and throws, leaving data unchanged, on a negative damping; getKKTContactDynamicMatrixInverse after forwardDynamics gives the same inverse. The results do not depend on what data held before.", "quantifier": "all models built by the API without mimic or zero-dof joints, numbered depth first, all valid configurations with a positive definite inertia matrix, velocities, torques, drifts, any number of constraints and any constraint matrix, mu > 0 or mu = 0 with independent rows", "why_tests_cant": "real-valued inputs, any tree, any number of constraints; tests check one humanoid with two feet", "anchors": ["include/pinocchio/algorithm/contact-dynamics.hxx:forwardDynamics", "include/pinocchio/algorithm/contact-dynamics.hxx:impulseDynamics", "include/pinocchio/algorithm/contact-dynamics.hxx:computeKKTContactDynamicMatrixInverse", "include/pinocchio/algorithm/contact-dynamics.hxx:getKKTContactDynamicMatrixInverse"]}
{"id": "C76", "title": "Jacobians of the exponential and logarithm of SO(3)", "statement": "Along any differentiable rotation vector w(t), the rotation exp(w(t)) turns, in its own frame, at the angular velocity Jexp3(w) dw/dt; Jlog3 is the inverse of that Jacobian and gives the rate of the rotation vector of a turning rotation; Hlog3(R, v) is the derivative of Jlog3 while the rotation turns at v; the ADDTO and RMTO variants add the Jacobian to their argument or subtract it; the 4x3 Jacobian of the quaternion exponential is the derivative of the quaternion coefficients. Near the origin, where series are used, the results are within a stated distance of those Jacobians (Jlog3: eps; Jexp3: eps^(3/4)/12 + eps); the second series coefficient of Jexp3 has the wrong sign and the coefficients of the quaternion series are doubled, so neither error is of the order of eps.", "quantifier": "all differentiable curves of rotation vectors, all precisions eps > 0 (eps <= 1/4 near the origin), away from full turns for the logarithm", "why_tests_cant": "real-valued inputs, a limit (derivative) in the statement, and errors of the size of finite-difference tolerances", "anchors": ["include/pinocchio/spatial/explog.hpp:Jexp3", "include/pinocchio/spatial/explog.hpp:Jlog3", "include/pinocchio/spatial/explog.hpp:Hlog3", "include/pinocchio/spatial/explog-quaternion.hpp:Jexp3CoeffWise", "include/pinocchio/spatial/log.hxx:Jlog3_impl"]}
{"id": "C77", "title": "Logarithms of rotation matrices and placements", "statement": "For every rotation matrix, log3 returns a rotation vector whose exponential is that matrix up to eps^(2/3)/16 + 8 eps and an angle in [0, pi] that is the norm of the vector up to sqrt(eps)/16 + eps; the result is exact away from the identity and half turns, and within 8 eps around half turns whatever the axis. For every placement, log6 has log3 of the rotation as angular part and exp6 of it gives back the translation, exactly away from the identity and up to eps^(2/3)/4 of its norm near it; exp6 and log6 are inverse of each other away from the identity and half turns. The rotation vector of a turning rotation changes at Jlog3(R) times its angular velocity. Near the identity the angle is not the norm of the vector up to a multiple of eps.", "quantifier": "all rotation matrices, all placements, all differentiable motions of a rotation, all precisions 0 < eps <= 1/4096", "why_tests_cant": "three zones with different formulas over a continuum of rotations, error bounds uniform in the input and the precision", "anchors": ["include/pinocchio/spatial/log.hxx:log3_impl", "include/pinocchio/spatial/log.hxx:compute_theta_axis", "include/pinocchio/spatial/log.hxx:log6_impl", "include/pinocchio/spatial/explog.hpp:log3", "include/pinocchio/spatial/explog.hpp:log6"]}
{"id": "C78", "title": "Jacobians of the exponential and logarithm of SE(3)", "statement": "Along any differentiable curve of motions nu(t), the placement exp6(nu(t)) moves, in its own frame, at the twist Jexp6(nu) dnu/dt; the logarithm of a placement that moves at the twist V changes at Jlog6(M) V; Jlog6(M) is the inverse of Jexp6(log6(M)), half turns included; the ADDTO and RMTO variants add the Jacobian to their argument or subtract it.", "quantifier": "all differentiable curves of motions and of placements away from the identity rotation (and from full turns for exp6, half turns for the rate of log6)", "why_tests_cant": "real-valued inputs and a limit (derivative) in the statement", "anchors": ["include/pinocchio/spatial/explog.hpp:Jexp6", "include/pinocchio/spatial/log.hxx:Jlog6_impl", "include/pinocchio/spatial/explog.hpp:Jlog6"]}
{"id": "C79", "title": "Derivatives of integrate and difference", "statement": "When a configuration q moves at the body velocity w and a tangent vector v changes at dv, the configuration integrate(q, v) moves at dIntegrate(ARG0) w + dIntegrate(ARG1) dv; when q0 moves at w0 and q1 at w1, difference(q0, q1) changes at dDifference(ARG0) w0 + dDifference(ARG1) w1. The ADDTO and RMTO variants add the matrix to their argument or subtract it; dIntegrateTransport multiplies by that matrix, in place as well. On a model the functions fill the diagonal block of each simple joint with the matrix of its group and leave every other entry of the matrix as it was.", "quantifier": "all groups and products of groups, all models built through the API, all differentiable curves of configurations and tangent vectors outside the series zones of the exponentials and logarithms, all matrices", "why_tests_cant": "real-valued inputs, a limit in the statement, products of groups of any depth and models of any size", "anchors": ["include/pinocchio/algorithm/joint-configuration.hxx:dIntegrate", "include/pinocchio/algorithm/joint-configuration.hxx:dDifference", "include/pinocchio/algorithm/joint-configuration.hxx:dIntegrateTransport", "include/pinocchio/multibody/liegroup/special-euclidean.hpp:dDifference_impl", "include/pinocchio/multibody/liegroup/special-orthogonal.hpp:dIntegrate_dv_impl", "include/pinocchio/multibody/liegroup/cartesian-product.hpp:dIntegrate_dq_impl"]}
{"id": "C80", "title": "Inertia and force supported by a frame", "statement": "computeSupportedInertiaByFrame without subtree returns, at the frame, the inertia of the bodies of the frame and of the frames mounted on it (through the same joint): its mass is the sum of their masses and, for every velocity, its momentum is the sum of their momenta. With subtree, after forward kinematics, it adds the bodies of the joints strictly below the joint of the frame. computeSupportedForceByFrame, after forwardKinematics(q, v, a) and rnea(q, v, a, fext), returns the wrench that the frame must exert to move those bodies, weight and external forces counted. For a frame fixed to the universe the inertia leaves out the first joint, and after rnea alone (all that the documentation asks for) the force depends on the data left by an earlier call.", "quantifier": "all models built through the API, all frames, configurations, velocities, accelerations, external forces and previous data", "why_tests_cant": "trees and frame chains of any size and real-valued states; the unit test calls forwardKinematics before, which hides the dependency on stale data", "anchors": ["include/pinocchio/algorithm/frames.hxx:computeSupportedInertiaByFrame", "include/pinocchio/algorithm/frames.hxx:computeSupportedForceByFrame", "include/pinocchio/algorithm/frames.hpp:computeSupportedForceByFrame"]}
{"id": "C81", "title": "Jacobian of the centre of mass of a subtree", "statement": "On a matrix of zeros jacobianSubtreeCenterOfMass(q, r) writes the matrix J such that, along every motion of the robot, J v is the time derivative of the centre of mass (world frame) of the bodies supported by joint r; it leaves the mass of the subtree in data.mass[r] and its centre of mass in data.com[r], and refuses an index that is not one of a joint or a subtree whose mass is not positive. getJacobianSubtreeCenterOfMass gives the same matrix after jacobianCenterOfMass(q, true). The matrix of zeros is needed. The function does not compute the Jacobians of all the joints as documented (joints outside the branch keep stale columns), leaves data.com[0] multiplied by the mass when r = 0, and erases data.Jcom, so that getJacobianSubtreeCenterOfMass must not be called after it.", "quantifier": "all models without mimic joints built through the API, all joints, configurations, motions and previous data (getJacobianSubtreeCenterOfMass: joints added depth first, none of dimension 0)", "why_tests_cant": "trees of any shape and real-valued states; tests look at one or two subtrees of a sample model", "anchors": ["include/pinocchio/algorithm/center-of-mass.hxx:jacobianSubtreeCenterOfMass", "include/pinocchio/algorithm/center-of-mass.hxx:getJacobianSubtreeCenterOfMass", "include/pinocchio/algorithm/center-of-mass.hpp:jacobianSubtreeCenterOfMass"]}
{"id": "C82", "title": "Partial derivative of the velocity of the centre of mass", "statement": "After centerOfMass(q, v) or computeAllTerms(q, v), getCenterOfMassVelocityDerivatives writes the matrix D such that, when the configuration moves at rate w while the velocity changes at rate v', the velocity of the centre of mass that centerOfMass(q, v) reports changes at rate D w + Jcom v'. Every column of the output is overwritten.", "quantifier": "all models without mimic joints built through the API whose subtrees have non-zero mass, all configurations, velocities, motions and previous data", "why_tests_cant": "trees of any shape and real-valued states; the unit test compares with finite differences at one random state of one model, whose joints have constant axes", "anchors": ["include/pinocchio/algorithm/center-of-mass-derivatives.hxx:getCenterOfMassVelocityDerivatives", "include/pinocchio/algorithm/center-of-mass-derivatives.hxx:CoMVelocityDerivativesForwardStep"]}
{"id": "C83", "title": "Jacobian of a rigid constraint", "statement": "For a RigidConstraintModel between a frame of joint1 and a frame of joint2, after computeJointJacobians(q), getConstraintJacobian fills a zero matrix J such that J v is the velocity of the first frame with respect to the second when the configuration moves at rate v: of their points for CONTACT_3D, of the frames for CONTACT_6D, in the axes of the first frame (LOCAL) or of the world (LOCAL_WORLD_ALIGNED). Columns outside colwise_sparsity are not touched, and that pattern marks exactly the joints that can change the constraint. getConstraintsJacobian stacks the constraints in order. The constructor refuses WORLD and succeeds for every pair of joints otherwise.", "quantifier": "all models without mimic joints built through the API, all pairs of joints and placements, all configurations, velocities and previous data, all lists of constraints", "why_tests_cant": "trees of any shape, any pair of joints with any common ancestor, real-valued states; the unit tests use one humanoid and a few frames", "anchors": ["include/pinocchio/algorithm/contact-jacobian.hxx:getConstraintJacobian", "include/pinocchio/algorithm/contact-jacobian.hxx:getConstraintsJacobian", "include/pinocchio/algorithm/contact-info.hpp:RigidConstraintModelTpl::init", "include/pinocchio/algorithm/contact-info.hpp:getTotalConstraintSize"]}
{"id": "C84", "title": "Contact inverse dynamics", "statement": "computeContactImpulses returns impulses in the friction cones; a vanishing relative_residual means that every contact obeys Coulomb's law for the velocities c_ref + constraint_correction + R x, an initial guess that already does is returned after one iteration, and otherwise the defect is bounded by the last change. contactInverseDynamics returns tau = rnea(q, v, a) - J^T lambda with lambda the impulses over dt, for c_ref = J (v + dt a). Inconsistent sizes and a non-positive proximal parameter are refused.", "quantifier": "all models without mimic joints built through the API, all configurations, velocities, accelerations and time steps, all lists of point contacts, friction coefficients, compliances with equal tangential components, settings, guesses and previous data", "why_tests_cant": "iterative algorithm over real-valued inputs and lists of any length; the unit test runs one model with two feet and compares with a simulation", "anchors": ["include/pinocchio/algorithm/contact-inverse-dynamics.hpp:computeContactImpulses", "include/pinocchio/algorithm/contact-inverse-dynamics.hpp:contactInverseDynamics", "include/pinocchio/algorithm/constraints/coulomb-friction-cone.hpp:weightedProject"]}
{"id": "C85", "title": "Consistency checks of models and data", "statement": "model.check(data) accepts the Data created for a model, refuses the Data of a model with another tree, other dimensions or another number of frames, and when it accepts, the ends and dofs of the subtrees and the rows of the parents stored in data are right. model.check() accepts exactly the models whose joints are numbered depth first and whose bodies have mass and inertia.", "quantifier": "all models built through the API, all Data objects (sizes and integer tables of any content)", "why_tests_cant": "acceptance must characterise all trees of any size; the unit test checks a few sample robots", "anchors": ["include/pinocchio/algorithm/check-data.hxx:checkData", "include/pinocchio/algorithm/check-model.hxx:ParentChecker", "include/pinocchio/algorithm/default-check.hpp:Model::check", "include/pinocchio/multibody/data.hxx:computeLastChild", "include/pinocchio/multibody/data.hxx:computeParents_fromRow"]}
{"id": "C86", "title": "Delassus operators with damping", "statement": "After any sequence of updateDamping, matrix and solve calls, a Delassus operator built from D multiplies by D + diag(d), returns D + diag(d) from matrix(), and solve, solveInPlace and inverse give the unique solutions of (D + diag(d)) x = b when that matrix is symmetric positive definite, where d is the damping given last (zero if none). This holds for the dense operator and for the sparse one, and makes both the exact solvers the contact solvers need.", "quantifier": "all sizes, all matrices D, all histories of calls, all right-hand sides, all fill-reducing permutations", "why_tests_cant": "the sparse operator updates its damped matrix incrementally through a mutable field that const queries also write; agreement must hold after every history of calls", "anchors": ["include/pinocchio/algorithm/delassus-operator-dense.hpp:DelassusOperatorDenseTpl", "include/pinocchio/algorithm/delassus-operator-sparse.hpp:DelassusOperatorSparseTpl", "include/pinocchio/algorithm/delassus-operator-sparse.hpp:SimplicialCholeskyWrapper::_solve_impl"]}
{"id": "C87", "title": "Changes of reference frame of motions and forces", "statement": "changeReferenceFrame between LOCAL, WORLD and LOCAL_WORLD_ALIGNED describes the same rigid motion (same velocity of every point) or the same force (same resultant, same moment at every point). Changes compose, a change and its converse cancel, the power of a force along a motion does not depend on the frame, and the velocities, accelerations and Jacobian columns the library returns in one frame are the changes of those it returns in another.", "quantifier": "all placements with a rotation, all motions and forces, all pairs and triples of reference frames, all joints and frames", "why_tests_cant": "the nine cases must be coherent for all placements and vectors; the unit tests compare random samples", "anchors": ["include/pinocchio/algorithm/utils/motion.hpp:changeReferenceFrame", "include/pinocchio/algorithm/utils/force.hpp:changeReferenceFrame", "include/pinocchio/algorithm/frames.hxx:getFrameVelocity", "include/pinocchio/algorithm/kinematics.hxx:getVelocity"]}
{"id": "C88", "title": "Copy of kinematic quantities between two Data", "statement": "copy(model, origin, dest, level) makes the queries on dest answer as on origin: placements of joints and frames always, velocities from level VELOCITY on, accelerations and forces from level ACCELERATION on. It changes nothing else in dest, and refuses levels below POSITION. Relative placements asked through the local convention are not covered by the copy and stay those of dest.", "quantifier": "all models, all contents of both Data, all levels, all joints, frames and reference frames", "why_tests_cant": "what is and is not copied must hold for every earlier content of the destination", "anchors": ["include/pinocchio/algorithm/copy.hpp:copy"]}
{"id": "C89", "title": "Loading a URDF description preserves its kinematics and its masses", "statement": "For every link tree with distinct link names and distinct joint names other than \"universe\", with or without a root joint, loading succeeds. The model has one joint per joint that is not fixed. Each link has exactly one body frame, and for every configuration that frame is placed with respect to the frame of the parent link by the origin of the connecting joint followed by the motion of that joint (nothing more for a fixed joint). The bodies attached to the model are the links with an inertia, each at its body frame, and the total mass is the sum of the masses of the links.", "quantifier": "all link trees of any depth and branching, all joint models other than mimic joints, all origins and inertias, all configurations", "why_tests_cant": "chains of fixed and moving joints can be nested in any order and depth, and the relation must hold at every configuration", "anchors": ["src/parsers/urdf/model.cpp:parseTree", "src/parsers/urdf/model.cpp:parseRootTree", "include/pinocchio/parsers/urdf/model.hxx:UrdfVisitor", "include/pinocchio/parsers/urdf/model.hxx:addFixedJointAndBody"]}
{"id": "C90", "title": "Joints of a URDF description move as described", "statement": "A URDF revolute or continuous joint is loaded as a joint that rotates about the described axis (of any norm), a prismatic joint as one that translates along it, up to the tolerance with which an axis is recognised as a coordinate axis; a planar joint moves in the plane orthogonal to its axis. The limits given to the joint have its sizes and hold the values of the description; those of a continuous joint exclude no angle.", "quantifier": "all joint types, all non-zero axes, all configurations, all limits and dynamics", "why_tests_cant": "the axis and the configuration range over continuous sets; the choice between aligned and unaligned joints must never be visible", "anchors": ["src/parsers/urdf/model.cpp:parseTree", "include/pinocchio/parsers/urdf/model.hxx:extractCartesianAxis", "include/pinocchio/parsers/urdf/model.hxx:addJointAndBody"]}
{"id": "C91", "title": "Reference configurations of an SRDF file", "statement": "Loading reference configurations gives, for each group_state tag, the neutral configuration in which exactly the joints named by its joint tags take the given values (an angle for a continuous joint); unknown joints and values of the wrong size change nothing, no joint writes into the coordinates of another, references already in the model are kept, and of several tags of one name the last is used.", "quantifier": "all models with distinct joint names, all lists of tags and values", "why_tests_cant": "the layout of the configuration depends on every joint of the model, and tags come in any order and number", "anchors": ["include/pinocchio/parsers/srdf.hxx:loadReferenceConfigurationsFromXML", "include/pinocchio/parsers/srdf.hxx:LoadReferenceConfigurationStep"]}
{"id": "C92", "title": "Rotor parameters of an SRDF file", "statement": "When loading rotor parameters succeeds, each joint named by a tag has one degree of freedom, its rotor inertia and gear ratio become those of the tag and its armature grows by inertia times ratio squared; tags of unknown joints change nothing, and no coordinate of any other joint changes. The addition is cumulative: a file loaded twice counts each rotor twice in the armature.", "quantifier": "all models with distinct joint names, all lists of tags with distinct names, all previous parameters", "why_tests_cant": "the velocity index of a joint depends on every joint before it, and tags come in any order and number", "anchors": ["include/pinocchio/parsers/srdf.hxx:loadRotorParameters"]}
