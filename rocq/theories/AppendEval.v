(* appendModel on models whose frames carry no inertia: a copy that evaluates without comparing real numbers, used for the
   examples only. *)
Require Import Reals String List Arith Bool Lia Lra.
From Verif Require Import Vec3 Spatial Inertia InertiaFacts Joints Model Spec_Model Mimic Reduce Append Spec_Attach AppendFacts5.
Import ListNotations.
Local Open Scope nat_scope.

Definition moveFrameP (eps : R) (r : Model) (f : Frame) : Res Model unit :=
  match addFrame eps r f true with Ok r _ => Ok r tt | Throw r => Throw r | Undef => Undef end.
Fixpoint moveFramesP (eps : R) (m r : Model) (j jid dflt : nat) (M : SE3) (fs : list Frame) : Res Model unit :=
  match fs with
  | [] => Ok r tt
  | f :: fs =>
      if fr_parentJoint f =? j
      then if existFrame r (fr_name f) (fr_type f) then Throw r else
           match parentFrameOf m r (fr_parentFrame f) dflt with
           | Throw r => Throw r
           | Undef => Undef
           | Ok _ pf =>
               match moveFrameP eps r (mkFrame (fr_name f) jid pf (se3_mul M (fr_placement f)) (fr_type f) (fr_inertia f)) with
               | Ok r _ => moveFramesP eps m r j jid dflt M fs
               | Throw r => Throw r
               | Undef => Undef
               end
           end
      else moveFramesP eps m r j jid dflt M fs
  end.

Definition appendUniverseP (eps : R) (m : Model) (parentFrame : nat) (pfM : SE3) (r : Model) : Res Model unit :=
  match nth_error (m_frames r) parentFrame with
  | None => Throw r
  | Some pframe =>
      let jid := fr_parentJoint pframe in
      let M := se3_mul (fr_placement pframe) pfM in
      match appendBodyToJoint eps r jid (nth 0 (m_inertias m) inertia_Zero) M with
      | Throw r => Throw r
      | Undef => Undef
      | Ok r _ => moveFramesP eps m r 0 jid parentFrame M (tl (m_frames m))
      end
  end.

Definition appendJointP (eps : R) (m : Model) (parent_id : nat) (pMi : SE3) (r : Model) (i : nat) : Res Model unit :=
  match nth_error (m_parents m) i, nth_error (m_names m) i, nth_error (m_joints m) i with
  | Some ip, Some nm, Some jm =>
      match (if 0 <? ip then option_map (outJointId m r) (nth_error (m_names m) ip) else Some parent_id) with
      | None => Undef
      | Some p =>
          if existJointName r nm then Throw r else
          match (if isMimic jm
                 then match nth_error (m_names m) (jm_ref jm) with
                      | None => None
                      | Some mimicked =>
                          let k := getJointId r mimicked in
                          option_map (fun jk => setMimicIndexes jm k (jm_idx_q jk) (jm_idx_v jk)) (nth_error (m_joints r) k)
                      end
                 else Some jm), limitsOf m jm with
          | Some jm', Some lim =>
              match copyToModel eps m r i nm jm jm' lim p pMi with
              | Throw r => Throw r
              | Undef => Undef
              | Ok r id => moveFramesP eps m r i id 0 se3_Identity (tl (m_frames m))
              end
          | _, _ => Undef
          end
      end
  | _, _, _ => Undef
  end.
Fixpoint appendJointsP (eps : R) (m : Model) (parent_id : nat) (pMi : nat -> SE3) (ids : list nat) (r : Model) : Res Model unit :=
  match ids with
  | [] => Ok r tt
  | i :: ids => match appendJointP eps m parent_id (pMi i) r i with
                | Ok r _ => appendJointsP eps m parent_id pMi ids r
                | x => x
                end
  end.

Definition appendModelP (eps : R) (neutralOf : Model -> list R) (a b : Model) (frameInModelA : nat) (aMb : SE3) : Res Model unit :=
  let r := emptyModel in
  if negb (frameInModelA <? m_nframes a) then Throw r else
  match nth_error (m_frames a) frameInModelA with
  | None => Undef
  | Some frame =>
      let p := fr_parentJoint frame in
      match appendUniverseP eps a 0 se3_Identity r with
      | Ok r _ =>
          match appendJointsP eps a 0 (fun _ => se3_Identity) (beforeB a p) r with
          | Ok r _ =>
              match outFrameId a r (fr_name frame) (fr_type frame) with
              | None => Throw r
              | Some pf =>
                  match appendUniverseP eps b pf aMb r with
                  | Ok r _ =>
                      match appendJointsP eps b p
                              (fun j => if nth j (m_parents b) 0 =? 0 then se3_mul (fr_placement frame) aMb else se3_Identity)
                              (seq 1 (length (m_joints b) - 1)) r with
                      | Ok r _ =>
                          match appendJointsP eps a 0 (fun _ => se3_Identity) (afterB a p) r with
                          | Ok r _ =>
                              match mergeConfigs a r (neutralOf r) (m_refs a) (m_refs r) with
                              | None => Undef
                              | Some refs => match mergeConfigs b r (neutralOf r) (m_refs b) refs with
                                             | None => Undef
                                             | Some refs => Ok (setRefs r refs) tt
                                             end
                              end
                          | x => x
                          end
                      | x => x
                      end
                  | x => x
                  end
              end
          | x => x
          end
      | x => x
      end
  end.

Lemma moveFrame_P eps r f : fr_inertia f = inertia_Zero -> moveFrame eps r f = moveFrameP eps r f.
Proof. intros E. unfold moveFrame. rewrite E, isZero_Zero. reflexivity. Qed.
Lemma moveFrames_P eps m j jid dflt M fs : (forall f, In f fs -> fr_inertia f = inertia_Zero) -> forall r, moveFrames eps m r j jid dflt M fs = moveFramesP eps m r j jid dflt M fs.
Proof.
  induction fs as [|f fs IH]; intros Hz r; [reflexivity|]. pose proof (IH (fun x Hx => Hz x (or_intror Hx))) as IH'. cbn [moveFrames moveFramesP].
  destruct (fr_parentJoint f =? j); [|apply IH']. destruct (existFrame r (fr_name f) (fr_type f)); [reflexivity|]. destruct (parentFrameOf m r (fr_parentFrame f) dflt) as [s pf|s|]; try reflexivity.
  rewrite moveFrame_P by exact (Hz f (or_introl eq_refl)). destruct (moveFrameP _ _ _); [apply IH'|reflexivity..].
Qed.
Lemma tl_In {A} (l : list A) x : In x (tl l) -> In x l. Proof. destruct l; [trivial | now right]. Qed.
Lemma appendUniverse_P eps m pf M r : plainFrames m -> appendUniverse eps m pf M r = appendUniverseP eps m pf M r.
Proof.
  intros Hz. unfold appendUniverse, appendUniverseP. destruct (nth_error (m_frames r) pf); [|reflexivity]. destruct (appendBodyToJoint _ _ _ _ _); try reflexivity. apply moveFrames_P. intros x Hx. now apply Hz, tl_In.
Qed.
Lemma appendJoint_P eps m p M r i : plainFrames m -> appendJoint eps m p M r i = appendJointP eps m p M r i.
Proof.
  intros Hz. unfold appendJoint, appendJointP. destruct (nth_error (m_parents m) i) as [ip|]; [|reflexivity]. destruct (nth_error (m_names m) i) as [nm|]; [|reflexivity]. destruct (nth_error (m_joints m) i) as [jm|]; [|reflexivity].
  destruct (if 0 <? ip then _ else _); [|reflexivity]. destruct (existJointName r nm); [reflexivity|]. destruct (if isMimic jm then _ else _); [|reflexivity]. destruct (limitsOf m jm); [|reflexivity].
  destruct (copyToModel _ _ _ _ _ _ _ _ _ _); try reflexivity. apply moveFrames_P. intros x Hx. now apply Hz, tl_In.
Qed.
Lemma appendJoints_P eps m p M ids : plainFrames m -> forall r, appendJoints eps m p M ids r = appendJointsP eps m p M ids r.
Proof. intros Hz. induction ids as [|i ids IH]; intros r; [reflexivity|]. cbn [appendJoints appendJointsP]. rewrite (appendJoint_P eps m p _ r i Hz). destruct (appendJointP _ _ _ _ _ _); [apply IH|reflexivity..]. Qed.
Lemma appendModel_P eps neu a b fi M : plainFrames a -> plainFrames b -> appendModel eps neu a b fi M = appendModelP eps neu a b fi M.
Proof.
  intros Ha Hb. unfold appendModel, appendModelP. destruct (negb _); [reflexivity|]. destruct (nth_error (m_frames a) fi) as [f|]; [|reflexivity].
  rewrite (appendUniverse_P eps a _ _ _ Ha). destruct (appendUniverseP _ _ _ _ _); [|reflexivity..]. rewrite (appendJoints_P eps a _ _ _ Ha). destruct (appendJointsP _ _ _ _ _ _); [|reflexivity..].
  destruct (outFrameId _ _ _ _); [|reflexivity]. rewrite (appendUniverse_P eps b _ _ _ Hb). destruct (appendUniverseP _ _ _ _ _); [|reflexivity..]. rewrite (appendJoints_P eps b _ _ _ Hb). destruct (appendJointsP _ _ _ _ _ _); [|reflexivity..].
  rewrite (appendJoints_P eps a _ _ _ Ha). reflexivity.
Qed.
