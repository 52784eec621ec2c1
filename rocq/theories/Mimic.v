(* Turning joints of a model into mimic joints (algorithm/model.hxx 861-1013). *)
Require Import Reals String List Arith Bool.
From Verif Require Import Vec3 Spatial Inertia Joints Model.
Import ListNotations.
Local Open Scope nat_scope.

(* multibody/joint/joint-basic-visitors.hxx 958-988 checkMimic with the trait is_mimicable_t of each joint header;
   None: the visitor throws *)
Definition checkMimic (j : Joint) : option Joint1 :=
  match j with
  | JSimple j1 =>
      match j1 with
      | JRevolute _ | JRevoluteUnaligned _ | JRUB _ | JRUBUnaligned _ | JPrismatic _ | JPrismaticUnaligned _
      | JHelical _ _ | JHelicalUnaligned _ _ => Some j1
      | _ => None
      end
  | _ => None
  end.

(* algorithm/model.hxx 281-285 insertSort: std::lower_bound is modelled by a linear scan (the same position on a
   sorted vector; on other vectors the standard leaves the position unspecified) *)
Fixpoint insertSort (v : nat) (l : list nat) : list nat :=
  match l with [] => [v] | x :: r => if x <? v then x :: insertSort v r else v :: l end.

(* dst.segment(o, n) = src.segment(i, n); None: a segment is out of range *)
Definition copySeg (src dst : list R) (i o n : nat) : option (list R) :=
  if (i + n <=? length src) && (o + n <=? length dst)
  then Some (setSegment dst o (firstn n (skipn i src))) else None.
(* the same copy for several members *)
Fixpoint copySegs (srcs dsts : list (list R)) (i o n : nat) : option (list (list R)) :=
  match srcs, dsts with
  | s :: srcs, d :: dsts =>
      match copySeg s d i o n, copySegs srcs dsts i o n with Some x, Some r => Some (x :: r) | _, _ => None end
  | _, _ => Some []
  end.

(* joint-mimic.hpp 665-674 setMimicIndexes *)
Definition setMimicIndexes (jm : JointM) (id q v : nat) : JointM :=
  mkJointM (jm_type jm) (jm_id jm) q v (jm_idx_vE jm) id.

(* the members of the output model written by the loops *)
Record Mim := mkMim {
  t_joints : list JointM; t_idx_qs : list nat; t_nqs : list nat; t_idx_vs : list nat; t_nvs : list nat;
  t_velo : list (list R);   (* effortLimit, velocityLimit, armature, rotorInertia, rotorGearRatio, friction, damping *)
  t_conf : list (list R) }. (* lowerPositionLimit, upperPositionLimit *)

Definition veloMembers (m : Model) : list (list R) :=
  [m_effort m; m_velocity m; m_armature m; m_rotorInertia m; m_rotorGearRatio m; m_friction m; m_damping m].
Definition confMembers (m : Model) : list (list R) := [m_lower m; m_upper m].

(* the assignments of 909-928 and 960-979: segments of the joint in the input (jointVelocitySelector,
   jointConfigSelector) copied to its segments in the output *)
Definition copyJoint (m : Model) (ji jo : JointM) (t : Mim) : option Mim :=
  match copySegs (veloMembers m) (t_velo t) (jm_idx_v ji) (jm_idx_v jo) (jnv (jm_type jo)),
        copySegs (confMembers m) (t_conf t) (jm_idx_q ji) (jm_idx_q jo) (jnq (jm_type jo)) with
  | Some ve, Some co => Some (mkMim (t_joints t) (t_idx_qs t) (t_nqs t) (t_idx_vs t) (t_nvs t) ve co)
  | _, _ => None
  end.

(* 905-929: joints before the new mimic joint *)
Fixpoint mimLoop1 (m : Model) (ids : list nat) (t : Mim) : option Mim :=
  match ids with
  | [] => Some t
  | i :: r =>
      match nth_error (m_joints m) i, nth_error (t_joints t) i with
      | Some ji, Some jo => match copyJoint m ji jo t with Some t => mimLoop1 m r t | None => None end
      | _, _ => None
      end
  end.

(* 934-981: the new mimic joint b and the joints after it.  iq, iv: the running indexes idx_q and idx_v *)
Fixpoint mimLoop2 (m : Model) (b : nat) (ids : list nat) (iq iv : nat) (t : Mim) : Res Mim unit :=
  match ids with
  | [] => Ok t tt
  | i :: r =>
      match nth_error (m_joints m) i, nth_error (t_joints t) i with
      | Some ji, Some jo =>
          match setIndexes jo (jm_id ji) iq iv (jm_idx_vE ji) with
          | None => Throw t
          | Some jo =>
              let k := jm_ref jo in
              match (if isMimic jo && negb (i =? b)
                     then match nth_error (t_idx_qs t) k, nth_error (t_idx_vs t) k with
                          | Some q, Some v => Some (setMimicIndexes jo k q v)
                          | _, _ => None
                          end
                     else Some jo) with
              | None => Undef
              | Some jo =>
                  let t1 := mkMim (upd (t_joints t) i (fun _ => jo))
                              (upd (t_idx_qs t) i (fun _ => jm_idx_q jo)) (upd (t_nqs t) i (fun _ => jnq (jm_type jo)))
                              (upd (t_idx_vs t) i (fun _ => jm_idx_v jo)) (upd (t_nvs t) i (fun _ => jnv (jm_type jo)))
                              (t_velo t) (t_conf t) in
                  match (if i =? b then Some t1 else copyJoint m ji jo t1) with
                  | None => Undef
                  | Some t2 => mimLoop2 m b r (iq + jnq (jm_type jo)) (iv + jnv (jm_type jo)) t2
                  end
              end
          end
      | _, _ => Undef
      end
  end.

(* the output model: the input model (line 881) with the members above replaced; the limits are those of [t] *)
Definition withMim (m : Model) (nq nv : nat) (t : Mim) (msup : list (list nat)) (mimicking mimicked : list nat) : Model :=
  mkModel nq nv (m_nvE m) (m_njoints m) (m_nbodies m) (m_nframes m)
    (m_inertias m) (m_placements m) (t_joints t)
    (t_idx_qs t) (t_nqs t) (t_idx_vs t) (t_nvs t) (m_idx_vEs m) (m_nvEs m)
    (m_parents m) (m_children m) mimicking mimicked (m_names m) (m_refs m)
    (nth 2 (t_velo t) []) (nth 3 (t_velo t) []) (nth 4 (t_velo t) []) (nth 5 (t_velo t) []) (nth 6 (t_velo t) [])
    (nth 0 (t_velo t) []) (nth 1 (t_velo t) []) (nth 0 (t_conf t) []) (nth 1 (t_conf t) [])
    (m_frames m) (m_supports m) msup (m_subtrees m) (m_gravity m) (m_name m).

(* algorithm/model.hxx 861-993 transformJointIntoMimic; [out] is the output model before the call.
   The id of the joint stored at index 0 is std::numeric_limits<JointIndex>::max() (joint-model-base.hpp 593-599), here
   the number of joints, which is greater than every joint id as well.  Eigen's resize leaves the members
   uninitialised (0 here). *)
Definition transformJointIntoMimic (out m : Model) (a b : nat) (scaling offset : R) : Res Model unit :=
  if negb (a <=? m_njoints m) then Throw out else
  if negb (b <=? m_njoints m) then Throw out else
  if negb (a <? b) then Throw out else
  match nth_error (m_joints m) b, nth_error (m_joints m) a with
  | Some jb, Some ja =>
      match checkMimic (jm_type jb) with
      | None => Throw m
      | Some j =>
          let ja := if a =? 0 then mkJointM (jm_type ja) (m_njoints m) (jm_idx_q ja) (jm_idx_v ja) (jm_idx_vE ja) (jm_ref ja) else ja in
          let nq := m_nq m - jnq (jm_type jb) in
          let nv := m_nv m - jnv (jm_type jb) in
          let t0 := mkMim (upd (m_joints m) b (fun _ => mkMimic j ja scaling offset))
                      (m_idx_qs m) (m_nqs m) (m_idx_vs m) (m_nvs m)
                      (repeat (repeat 0%R nv) 7) (repeat (repeat 0%R nq) 2) in
          match mimLoop1 m (seq 1 (b - 1)) t0, nth_error (m_idx_qs m) b, nth_error (m_idx_vs m) b, nth_error (m_subtrees m) b with
          | Some t1, Some iq, Some iv, Some sub =>
              match mimLoop2 m b (seq b (m_njoints m - b)) iq iv t1 with
              | Ok t2 _ =>
                  (* 983-992 *)
                  Ok (withMim m nq nv t2
                        (fold_left (fun ms i => upd ms i (insertSort b)) sub (m_mimic_supports m))
                        (insertSort b (m_mimicking m)) (insertSort a (m_mimicked m))) tt
              | Throw t2 => Throw (withMim m nq nv t2 (m_mimic_supports m) (m_mimicking m) (m_mimicked m))
              | Undef => Undef
              end
          | _, _, _, _ => Undef
          end
      end
  | _, _ => Undef
  end.

(* algorithm/model.hxx 996-1013 buildMimicModel: the lists of the four arguments are zipped (the code reads the last
   three at the positions of the first without checking their lengths) *)
Fixpoint buildMimicModel (out m : Model) (l : list (nat * nat * R * R)) : Res Model unit :=
  match l with
  | [] => Ok out tt
  | (a, b, s, o) :: r =>
      match transformJointIntoMimic out m a b s o with
      | Ok m1 _ => buildMimicModel m1 m1 r
      | x => x
      end
  end.
