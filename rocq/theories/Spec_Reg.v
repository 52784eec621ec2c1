(* Independent description of what a regressor is: the inertial parameters of the bodies, stacked. *)
Require Import Reals List Arith.
From Verif Require Import Vec3 Spatial Inertia Joints Deriv Model Spec_Model Kinematics Spec_Kin.
Import ListNotations.
Local Open Scope R_scope.

(* the ten inertial parameters of a body: mass, first moment of mass, inertia about the origin of its frame (xx, xy, yy, xz, yz, zz) *)
Definition param (Y : Inertia) (k : nat) : R :=
  let m := mass Y in let c := lever Y in
  match k with
  | 0%nat => m
  | 1%nat => m * vx c | 2%nat => m * vy c | 3%nat => m * vz c
  | 4%nat => s0 (inertia Y) + m * (vy c * vy c + vz c * vz c)
  | 5%nat => s1 (inertia Y) - m * (vx c * vy c)
  | 6%nat => s2 (inertia Y) + m * (vx c * vx c + vz c * vz c)
  | 7%nat => s3 (inertia Y) - m * (vx c * vz c)
  | 8%nat => s4 (inertia Y) - m * (vy c * vz c)
  | _ => s5 (inertia Y) + m * (vx c * vx c + vy c * vy c)
  end.
(* stacked over the bodies 1, 2, ...: all ten, or mass and first moment only *)
Definition params (m : Model) (c : nat) : R := param (inertiaOf m (S (c / 10))) (c mod 10).
Definition params4 (m : Model) (c : nat) : R := param (inertiaOf m (S (c / 4))) (c mod 4).

(* the same mechanism with other joint placements *)
Definition withPlacements (m : Model) (P : nat -> SE3) : Model :=
  mkModel (m_nq m) (m_nv m) (m_nvE m) (m_njoints m) (m_nbodies m) (m_nframes m)
    (m_inertias m) (map P (seq 0 (m_njoints m))) (m_joints m)
    (m_idx_qs m) (m_nqs m) (m_idx_vs m) (m_nvs m) (m_idx_vEs m) (m_nvEs m)
    (m_parents m) (m_children m) (m_mimicking m) (m_mimicked m) (m_names m) (m_refs m)
    (m_armature m) (m_rotorInertia m) (m_rotorGearRatio m) (m_friction m) (m_damping m)
    (m_effort m) (m_velocity m) (m_lower m) (m_upper m) (m_frames m)
    (m_supports m) (m_mimic_supports m) (m_subtrees m) (m_gravity m) (m_name m).
(* twists of the placements 1, 2, ..., stacked *)
Definition comp6 (V : V6) (k : nat) : R :=
  match k with 0%nat => vx (lin V) | 1%nat => vy (lin V) | 2%nat => vz (lin V) | 3%nat => vx (ang V) | 4%nat => vy (ang V) | _ => vz (ang V) end.
Definition stack6 (tau : nat -> V6) (c : nat) : R := comp6 (tau (S (c / 6))) (c mod 6).
(* V, expressed in the reference frame rf, is the velocity of the frame M at t *)
Definition velocityIn (rf : RefFrame) (M : R -> SE3) (V : V6) (t : R) : Prop :=
  match rf with
  | LOCAL => hasTwist M V t
  | WORLD => hasTwist M (motion_actInv (M t) V) t
  | LOCAL_WORLD_ALIGNED => deriv3 (fun s => trans (M s)) (lin V) t /\ hasTwist M (mkV6 (m3vec (m3tr (rot (M t))) (lin V)) (m3vec (m3tr (rot (M t))) (ang V))) t
  end.
