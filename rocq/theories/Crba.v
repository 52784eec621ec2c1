(* The integer tables of pinocchio::Data used by the mass-matrix algorithms (data.hxx) and algorithm/crba.hxx. *)
Require Import Reals List Arith ZArith Lia Bool.
From Verif Require Import Vec3 Spatial Inertia Joints Model Spec_Model Data Kinematics.
Import ListNotations.
Local Open Scope nat_scope.
Local Open Scope bool_scope.

(* ---- data.hxx 197-242 computeLastChild ---- *)
(* 201-208: the table lastChild, -1 when not yet set; i runs from njoints-1 down to 0.  The step for i = 0 only writes
   lastChild[0], which no algorithm modelled here reads; it is left out. *)
Definition lastStep (m : Model) (lc : nat -> Z) (i : nat) : nat -> Z :=
  let lc := if (lc i =? -1)%Z then putn lc i (Z.of_nat i) else lc in
  putn lc (parent m i) (Z.max (lc i) (lc (parent m i))).
Definition lastChild (m : Model) : nat -> Z := downward m (lastStep m) (fun _ => (-1)%Z).
(* 212-225; joints[lastChild[i]] is lastChild[i] >= 0 *)
Definition nvSubtree (m : Model) (i : nat) : Z :=
  if isMimic (joint m i) then 0%Z
  else let l := Z.to_nat (lastChild m i) in
       (Z.of_nat (jm_idx_v (joint m l)) + Z.of_nat (if isMimic (joint m l) then jnvE (jm_type (joint m l)) else jnv (jm_type (joint m l)))
        - Z.of_nat (jm_idx_v (joint m i)))%Z.
(* 228-241: first joint of the subtree of a mimic joint, after itself, that owns dofs; None: the read mimicking_sub[size] *)
Definition mimicSubtreeJoint (m : Model) (i : nat) : option nat :=
  match subtree m i with
  | [_] => Some 0
  | s => match find (fun j => negb (nvOf m j =? 0)) (tl s) with Some j => Some j | None => None end
  end.

(* ---- blocks of matrices stored column by column, and of nv x nv matrices ---- *)
Definition within (b n k : nat) : bool := (b <=? k) && (k <? b + n).
(* X.middleCols(b, n) = f *)
Definition setCols {V : Type} (b n : nat) (f : nat -> V) (x : nat -> V) : nat -> V := fun k => if within b n k then f (k - b) else x k.
(* M.block(r, c, nr, nc) = f, and += f *)
Definition setBlock (r c nr nc : nat) (f : nat -> nat -> R) (x : nat -> nat -> R) : nat -> nat -> R :=
  fun k l => if within r nr k && within c nc l then f (Nat.sub k r) (Nat.sub l c) else x k l.
Definition addBlock (r c nr nc : nat) (f : nat -> nat -> R) (x : nat -> nat -> R) : nat -> nat -> R :=
  fun k l => if within r nr k && within c nc l then Rplus (x k l) (f (Nat.sub k r) (Nat.sub l c)) else x k l.
(* column k of a 6 x n matrix given by its columns *)
Definition colOf (S : list V6) (k : nat) : V6 := nth k S v6zero.

Definition onCo (d : Data) (t : CoT) (f : (nat -> V6) -> nat -> V6) : Data := setGl d (setCo (gl d) t (f (co (gl d) t))).
Definition onM (d : Data) (f : (nat -> nat -> R) -> nat -> nat -> R) : Data := setGl d (setMa (gl d) F_M (f (ma (gl d) F_M))).
Definition onYi (d : Data) (i : nat) (t : YiT) (f : Inertia -> Inertia) : Data := setRow d i (setYi (rows d i) t (f (yi (rows d i) t))).

Section Crba.
Variable eps : R.   (* the epsilon of Inertia::operator+= *)

(* ---- world convention ---- *)
(* crba.hxx 44-57 CrbaWorldConventionForwardStep::algo: the row of the joint, then data.J *)
Definition crbaWRow (m : Model) (q : vec) (i : nat) (r rp : Row) : Row :=
  let r := fk0Row m q i r rp in
  setYi r F_oYcrb (inertia_act (pl r F_oMi) (inertiaOf m i)).
Definition crbaWCols (m : Model) (i : nat) (r : Row) (g : Glob) : Glob :=
  setCo g F_J (setCols (jm_idx_vE (joint m i)) (jnvE (jm_type (joint m i))) (fun k => motion_act (pl r F_oMi) (colOf (jS (jd r)) k)) (co g F_J)).
(* crba.hxx 80-109 CrbaWorldConventionBackwardStep::algo_impl, ordinary and mimic joints *)
Definition crbaWBack (m : Model) (d : Data) (i : nat) : Data :=
  let bv := jm_idx_v (joint m i) in let nv := jnv (jm_type (joint m i)) in let bE := jm_idx_vE (joint m i) in
  let d :=
    if isMimic (joint m i) then d
    else
      let d := onCo d F_Ag (setCols bv (jnvE (jm_type (joint m i))) (fun k => inertia_mul (yi (rows d i) F_oYcrb) (co (gl d) F_J (bE + k)))) in
      onM d (setBlock bv bv nv (Z.to_nat (nvSubtree m i)) (fun k l => v6dot (co (gl d) F_J (bE + k)) (co (gl d) F_Ag (bv + l)))) in
  onYi d (parent m i) F_oYcrb (fun Y => inertia_pequ eps Y (yi (rows d i) F_oYcrb)).
(* crba.hxx 185-210: the two loops over the support of the mimic joint; j is decreased below 0, hence out of bounds, when the
   condition of the first loop still holds at j = 0.  In the first loop a (sup_nvExtended x nvExtended) product is added to a
   (nvExtended x sup_nv) block: undefined unless the sizes agree. *)
Fixpoint crbaWLoop2 (m : Model) (i : nat) (Ag : nat -> V6) (s : list nat) (j : nat) (d : Data) : Data :=
  match j with
  | 0 => d
  | S j' =>
      let l := nth j s 0 in
      let d := onM d (addBlock (idx_v m l) (jm_idx_v (joint m i)) (nvOf m l) (jnvE (jm_type (joint m i)))
                        (fun k c => v6dot (co (gl d) F_J (idx_vE m l + k)) (Ag c))) in
      crbaWLoop2 m i Ag s j' d
  end.
Fixpoint crbaWLoop1 (m : Model) (i : nat) (Ag : nat -> V6) (s : list nat) (j : nat) (d : Data) : Res Data unit :=
  let l := nth j s 0 in
  if jm_idx_v (joint m i) <=? idx_v m l then
    let blk := addBlock (jm_idx_v (joint m i)) (idx_v m l) (jnvE (jm_type (joint m i))) (nvOf m l)
                 (fun k c => v6dot (co (gl d) F_J (idx_vE m l + k)) (Ag c)) in
    let d := onM d blk in
    let d := if l =? jm_ref (joint m i) then onM d blk else d in
    if negb (nvEOf m l =? jnvE (jm_type (joint m i))) || negb (jnvE (jm_type (joint m i)) =? nvOf m l) then Undef else
    match j with 0 => Undef | S j' => crbaWLoop1 m i Ag s j' d end
  else Ok (crbaWLoop2 m i Ag s j d) tt.
(* crba.hxx 148-216 CrbaWorldConventionMimicStep::algo_impl *)
Definition crbaWMimic (m : Model) (d : Data) (i : nat) : Res Data unit :=
  let bv := jm_idx_v (joint m i) in let nE := jnvE (jm_type (joint m i)) in let bE := jm_idx_vE (joint m i) in
  let Jc := fun k => co (gl d) F_J (bE + k) in
  let Ag := fun k => inertia_mul (yi (rows d i) F_oYcrb) (Jc k) in
  let d := onM d (addBlock bv bv nE nE (fun k l => v6dot (Jc k) (Ag l))) in
  match mimicSubtreeJoint m i with
  | None => Undef
  | Some sub =>
      let d := if sub =? 0 then d else
        onM d (addBlock bv (idx_v m sub) nE (Z.to_nat (nvSubtree m sub)) (fun k l => v6dot (Jc k) (co (gl d) F_Ag (idx_v m sub + l)))) in
      let s := support m i in
      match crbaWLoop1 m i Ag s (length s - 2) d with
      | Ok d _ => Ok (onCo d F_Ag (fun x => setCols bv nE (fun k => v6add (x (bv + k)) (Ag k)) x)) tt
      | Throw s => Throw s
      | Undef => Undef
      end
  end.
Fixpoint mimicPass (step : Data -> nat -> Res Data unit) (l : list nat) (d : Data) : Res Data unit :=
  match l with
  | [] => Ok d tt
  | i :: r => match step d i with Ok d _ => mimicPass step r d | Throw d => Throw d | Undef => Undef end
  end.
(* data.M.diagonal() += model.armature *)
Definition addDiagonal (m : Model) (d : Data) : Data :=
  onM d (fun M k l => if (k =? l) && (k <? m_nv m) then (M k l + nth k (m_armature m) 0)%R else M k l).
(* crba.hxx 498-548 crbaWorldConvention; the result is data.M *)
Definition crbaWorld (m : Model) (d : Data) (q : vec) : Res Data unit :=
  let d := onYi d 0 F_oYcrb (fun _ => inertia_Zero) in
  let d := upward m (rowStepG m (crbaWRow m q) (crbaWCols m)) d in
  let d := downward m (crbaWBack m) d in
  match mimicPass (crbaWMimic m) (m_mimicking m) d with
  | Ok d _ =>
      let d := addDiagonal m d in
      let d := setRow d 0 (setP3 (setSc (rows d 0) F_mass (mass (yi (rows d 0) F_oYcrb))) F_com (lever (yi (rows d 0) F_oYcrb))) in
      Ok (onCo d F_Ag (fun x k => if k <? m_nv m then mkV6 (lin (x k)) (v3add (ang (x k)) (v3cross (lin (x k)) (p3 (rows d 0) F_com))) else x k)) tt
  | Throw s => Throw s
  | Undef => Undef
  end.

(* ---- local convention ---- *)
(* crba.hxx 243-247 CrbaLocalConventionForwardStep::algo *)
Definition crbaLRow (m : Model) (q : vec) (i : nat) (r rp : Row) : Row :=
  let r := setJd r (calcJoint0 m i (jd r) q) in
  let r := setPl r F_liMi (se3_mul (placementOf m i) (jM (jd r))) in
  setYi r F_Ycrb (inertiaOf m i).
Definition onF (d : Data) (i : nat) (f : (nat -> V6) -> nat -> V6) : Data := setGl d (setFcrb (gl d) (putn (fcrb (gl d)) i (f (fcrb (gl d) i)))).
(* crba.hxx 272-338 CrbaLocalConventionBackwardStep::algo_impl, ordinary and mimic joints *)
Definition crbaLBack (m : Model) (d : Data) (i : nat) : Data :=
  let bv := jm_idx_v (joint m i) in let nv := jnv (jm_type (joint m i)) in let p := parent m i in
  let n := Z.to_nat (nvSubtree m i) in
  let d :=
    if isMimic (joint m i) then d
    else
      let d := onF d i (setCols bv (jnvE (jm_type (joint m i))) (fun k => inertia_mul (yi (rows d i) F_Ycrb) (colOf (jS (jd (rows d i))) k))) in
      onM d (setBlock bv bv nv n (fun k l => v6dot (colOf (jS (jd (rows d i))) k) (fcrb (gl d) i (bv + l)))) in
  if 0 <? p then
    let d := onYi d p F_Ycrb (fun Y => inertia_pequ eps Y (inertia_act (pl (rows d i) F_liMi) (yi (rows d i) F_Ycrb))) in
    if isMimic (joint m i)
    then onF d p (fun x k => if k <? m_nv m then v6add (x k) (force_act (pl (rows d i) F_liMi) (fcrb (gl d) i k)) else x k)
    else onF d p (setCols bv n (fun k => force_act (pl (rows d i) F_liMi) (fcrb (gl d) i (bv + k))))
  else d.
(* crba.hxx 417-446: the two loops; the columns of F of the mimic joint are moved up the support at each turn *)
Definition crbaLMove (m : Model) (i c : nat) (d : Data) : Data :=
  onF d i (fun x => setCols (jm_idx_v (joint m i)) (jnvE (jm_type (joint m i))) (fun k => force_act (pl (rows d c) F_liMi) (x (jm_idx_v (joint m i) + k))) x).
Fixpoint crbaLLoop2 (m : Model) (i : nat) (s : list nat) (j : nat) (d : Data) : Data :=
  match j with
  | 0 => d
  | S j' =>
      let l := nth j s 0 in
      let d := crbaLMove m i (nth (S j) s 0) d in
      let d := onM d (addBlock (idx_v m l) (jm_idx_v (joint m i)) (nvOf m l) (jnvE (jm_type (joint m i)))
                        (fun k c => v6dot (colOf (jS (jd (rows d l))) k) (fcrb (gl d) i (jm_idx_v (joint m i) + c)))) in
      crbaLLoop2 m i s j' d
  end.
Fixpoint crbaLLoop1 (m : Model) (i : nat) (s : list nat) (j : nat) (d : Data) : Res Data unit :=
  let l := nth j s 0 in
  if jm_idx_v (joint m i) <=? idx_v m l then
    let d := crbaLMove m i (nth (S j) s 0) d in
    let blk := addBlock (jm_idx_v (joint m i)) (idx_v m l) (jnvE (jm_type (joint m i))) (nvOf m l)
                 (fun k c => v6dot (colOf (jS (jd (rows d l))) k) (fcrb (gl d) i (jm_idx_v (joint m i) + c))) in
    let d := onM d blk in
    let d := if l =? jm_ref (joint m i) then onM d blk else d in
    if negb (nvEOf m l =? jnvE (jm_type (joint m i))) || negb (jnvE (jm_type (joint m i)) =? nvOf m l) then Undef else
    match j with 0 => Undef | S j' => crbaLLoop1 m i s j' d end
  else Ok (crbaLLoop2 m i s j d) tt.
(* crba.hxx 382-446 CrbaLocalConventionMimicStep::algo_impl *)
Definition crbaLMimic (m : Model) (d : Data) (i : nat) : Res Data unit :=
  let bv := jm_idx_v (joint m i) in let nE := jnvE (jm_type (joint m i)) in
  let S := colOf (jS (jd (rows d i))) in
  let d := onF d i (setCols bv nE (fun k => inertia_mul (yi (rows d i) F_Ycrb) (S k))) in
  let d := onM d (addBlock bv bv nE nE (fun k l => v6dot (S k) (fcrb (gl d) i (bv + l)))) in
  match mimicSubtreeJoint m i with
  | None => Undef
  | Some sub =>
      let d := if sub =? 0 then d else
        onM d (addBlock bv (idx_v m sub) nE (Z.to_nat (nvSubtree m sub)) (fun k l => v6dot (S k) (fcrb (gl d) i (idx_v m sub + l)))) in
      let s := support m i in crbaLLoop1 m i s (length s - 2) d
  end.
(* crba.hxx 454-491 crbaLocalConvention; the result is data.M *)
Definition crbaLocal (m : Model) (d : Data) (q : vec) : Res Data unit :=
  let d := upward m (rowStep m (crbaLRow m q)) d in
  let d := downward m (crbaLBack m) d in
  match mimicPass (crbaLMimic m) (m_mimicking m) d with
  | Ok d _ => Ok (addDiagonal m d) tt
  | Throw s => Throw s
  | Undef => Undef
  end.
End Crba.

(* ---- crba.hxx 557-570 internal::isDescendant; the recursion follows the parents, the fuel is an upper bound of the depth ---- *)
Fixpoint isDescendant (m : Model) (fuel j root : nat) : bool :=
  if m_njoints m <=? j then false
  else if j =? 0 then root =? 0
  else (j =? root) || match fuel with 0 => false | S f => isDescendant m f (parent m j) root end.
(* crba.hxx 587-592: k is increased while it is a descendant of i; then no larger k may be one *)
Fixpoint skipDescendants (m : Model) (i k n : nat) : nat :=
  match n with 0 => k | S n' => if isDescendant m (m_njoints m) k i then skipDescendants m i (S k) n' else k end.
(* crba.hxx 574-595 CRBAChecker::checkModel_impl *)
Definition crbaCheck (m : Model) : bool :=
  forallb (fun i => let k := skipDescendants m i (i + 1) (m_njoints m) in
                    forallb (fun k => negb (isDescendant m (m_njoints m) k i)) (seq k (m_njoints m - k)))
          (seq 1 (m_njoints m - 2)).
