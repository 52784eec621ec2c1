(* algorithm/check-data.hxx (Model::check(data)), algorithm/check-model.hxx, algorithm/default-check.hpp, the checker of
   algorithm/aba.hxx, and the sizes and integer tables created by the constructor of Data (data.hxx 20-194). *)
Require Import Reals List Arith ZArith Lia Bool.
From Verif Require Import Vec3 Spatial Inertia Joints Model Spec_Model Data Kinematics Crba Jacobian.
Import ListNotations.
Local Open Scope nat_scope.
Local Open Scope bool_scope.

(* ---- what checkData reads of a Data object: the sizes of the containers and the integer tables ---- *)
Record Shape := mkShape {
  n_joints : nat; n_a : nat; n_a_gf : nat; n_v : nat; n_f : nat; n_oMi : nat; n_liMi : nat; n_Ycrb : nat; n_Yaba : nat;
  c_Fcrb : list nat;                       (* columns of each matrix *)
  n_iMf : nat; n_com : nat; n_vcom : nat; n_acom : nat; n_mass : nat;
  n_tau : nat; n_nle : nat; n_ddq : nat; n_u : nat; r_M : nat; c_M : nat; c_Ag : nat; c_U : nat; r_U : nat; n_D : nat; n_tmp : nat;
  c_J : nat; c_Jcom : nat; n_res : nat; n_dqa : nat; h0 : nat; h1 : nat; h2 : nat; n_oMf : nat;
  s_last : list Z; s_nvs : list Z;                                   (* lastChild, nvSubtree *)
  s_par : list Z; s_mim : list Z; s_non : list Z; n_red : nat;        (* parents_fromRow, mimic_, non_mimic_; idx_vExtended_to_idx_v_fromRow *)
  s_nvr : list Z; n_start : nat; n_end : nat;                         (* nvSubtree_fromRow, start_ and end_idx_v_fromRow *)
  s_msub : list nat }.                                                (* mimic_subtree_joint *)

Definition table {A} (n : nat) (f : nat -> A) : list A := map f (seq 0 n).
Fixpoint allSome {A} (l : list (option A)) : option (list A) :=
  match l with
  | [] => Some []
  | x :: r => match x, allSome r with Some a, Some s => Some (a :: s) | _, _ => None end
  end.
(* data.hxx 21-194: the sizes and tables of a new Data.  None: the read mimicking_sub[size] of 240.  The entry of the universe
   in lastChild and nvSubtree is not that of the code (see Crba.v); checkData does not read it.  A joint without columns makes
   computeParents_fromRow write the entries of its successor, or outside of the tables: those writes are lost here. *)
Definition newShape (m : Model) : option Shape :=
  match allSome (map (mimicSubtreeJoint m) (m_mimicking m)) with
  | None => None
  | Some ms =>
      let n := m_njoints m in let nv := m_nv m in let nvE := m_nvE m in
      Some (mkShape n n n n n n n n n (repeat nv n) n n n n n
                    nv nv nv nv nv nv nv nv nv nv nv nvE nv nv nv 6 nv nv (m_nframes m)
                    (table n (lastChild m)) (table n (nvSubtree m))
                    (table nvE (t_par (rowTables m))) (table nvE (t_mim (rowTables m))) (table nvE (t_non (rowTables m))) nvE
                    (table nvE (t_nvs (rowTables m))) nvE nvE ms)
  end.

(* ---- check-data.hxx 32-89: the sizes (the branch of a recent Eigen for kinematic_hessians) ---- *)
Definition checkSizes (m : Model) (s : Shape) : bool :=
  let n := m_njoints m in let nv := m_nv m in let nvE := m_nvE m in
  forallb (fun x => x =? n) [n_joints s; n_a s; n_a_gf s; n_v s; n_f s; n_oMi s; n_liMi s; n_Ycrb s; n_Yaba s; length (c_Fcrb s)]
  && forallb (fun x => x =? nv) (c_Fcrb s)
  && forallb (fun x => x =? n) [n_iMf s; n_com s; n_vcom s; n_acom s; n_mass s]
  && forallb (fun x => x =? nv) [n_tau s; n_nle s; n_ddq s; n_u s; r_M s; c_M s; c_Ag s; c_U s; r_U s; n_D s]
  && (nv <=? n_tmp s) && (c_J s =? nvE)
  && forallb (fun x => x =? nv) [c_Jcom s; n_res s; n_dqa s]
  && (h0 s =? 6) && (h1 s =? nv) && (h2 s =? nv) && (n_oMf s =? m_nframes m)
  && (length (s_last s) =? n) && (length (s_nvs s) =? n)
  && forallb (fun x => x =? nvE) [length (s_par s); length (s_mim s); length (s_non s); n_red s; length (s_nvr s); n_start s; n_end s].

(* 91-101: the indexes stored in the joints *)
Definition checkIndexes (m : Model) (j : nat) : bool :=
  (nqOf m j =? jnq (jm_type (joint m j))) && (idx_q m j =? jm_idx_q (joint m j))
  && (nvOf m j =? jnv (jm_type (joint m j))) && (idx_v m j =? jm_idx_v (joint m j))
  && (nvEOf m j =? jnvE (jm_type (joint m j))) && (idx_vE m j =? jm_idx_vE (joint m j)).

(* 107-120: dofs of the joints j .. c (0 for a mimic joint), whose parents must be j or later *)
Definition nvJ (m : Model) (j : nat) : nat := jnv (jm_type (joint m j)).
Definition countDofs (m : Model) (j c : nat) : nat := if isMimic (joint m j) then 0 else nvJ m j + sum (map (nvJ m) (seq (j + 1) (c - j))).
Definition checkInside (m : Model) (j c : nat) : bool := isMimic (joint m j) || forallb (fun d => j <=? parent m d) (seq (j + 1) (c - j)).
(* 123-124 *)
Definition checkOutside (m : Model) (j c : nat) : bool :=
  forallb (fun d => (parent m d <? j) || (c <? parent m d)) (seq (c + 1) (m_njoints m - (c + 1))).
(* 138: joints[0] is a default-constructed revolute joint: idx_vExtended() is -1 and nvExtended() is 1, and it is not a mimic *)
Definition lastRow (m : Model) (p : nat) : Z :=
  if p =? 0 then (-1 + 1 - 1)%Z else (Z.of_nat (jm_idx_vE (joint m p)) + Z.of_nat (jnvE (jm_type (joint m p))) - 1)%Z.
(* 129-150 *)
Definition checkRows (m : Model) (s : Shape) (j : nat) : bool :=
  let row := jm_idx_vE (joint m j) in let p := parent m j in
  let par := nth row (s_par s) 0%Z in let mim := nth row (s_mim s) 0%Z in let non := nth row (s_non s) 0%Z in
  if row =? 0 then (par =? -1)%Z && (mim =? -1)%Z && (non =? -1)%Z
  else (lastRow m p =? par)%Z && (if negb (p =? 0) && isMimic (joint m p) then (par =? mim)%Z else (par =? non)%Z).
(* 102-151: one joint.  None: undefined.  A negative lastChild passes the test of 105 and makes the loops run over 2^64 joints
   (the code may return false before it reads outside); the tables are read at idx_vExtended without a check. *)
Definition checkJoint (m : Model) (s : Shape) (j : nat) : option bool :=
  let c := nth j (s_last s) 0%Z in
  if (c <? 0)%Z then None
  else if negb (c <? Z.of_nat (m_njoints m))%Z then Some false                                           (* 105 *)
  else
    let c := Z.to_nat c in let nvs := nth j (s_nvs s) 0%Z in
    if negb (checkInside m j c && (Z.of_nat (countDofs m j c) =? nvs)%Z && checkOutside m j c) then Some false     (* 106-124 *)
    else if m_nvE m <=? jm_idx_vE (joint m j) then None
    else Some ((nvs =? nth (jm_idx_vE (joint m j)) (s_nvr s) 0%Z)%Z && checkRows m s j).                   (* 126-150 *)
(* 158-169: the loop leaves after its first iteration *)
Definition checkMimicSub (m : Model) (s : Shape) (ki : nat * nat) : option bool :=
  let id := match nth_error (subtree m (snd ki)) 1 with Some j => if nvOf m j =? 0 then 0 else j | None => 0 end in
  match nth_error (s_msub s) (fst ki) with Some x => Some (id =? x) | None => None end.
Fixpoint allChk {A} (f : A -> option bool) (l : list A) : option bool :=
  match l with [] => Some true | x :: r => match f x with Some true => allChk f r | o => o end end.
(* check-data.hxx 14-174 checkData *)
Definition checkData (m : Model) (s : Shape) : option bool :=
  if negb (checkSizes m s) then Some false
  else if negb (forallb (checkIndexes m) (seq 1 (m_njoints m - 1))) then Some false
  else match allChk (checkJoint m s) (seq 1 (m_njoints m - 1)) with
       | Some true => allChk (checkMimicSub m s) (combine (seq 0 (length (m_mimicking m))) (m_mimicking m))
       | o => o
       end.

(* ---- check-model.hxx 42-54 ParentChecker ---- *)
Definition parentCheck (m : Model) : bool := forallb (fun j => negb (j <=? parent m j)) (seq 1 (m_njoints m - 1)).
(* check-model.hxx 57-67 MimicChecker *)
Definition mimicCheck (m : Model) : bool := match m_mimicking m with [] => true | _ => false end.
(* aba.hxx 911-924 ABAChecker; data()[0], [2] and [5] are the diagonal of the rotational inertia *)
Definition abaCheck (m : Model) : bool :=
  forallb (fun j => let Y := inertiaOf m j in
    negb ((if Rlt_dec (mass Y) (1 / 100000) then true else false) || (if Rlt_dec (s0 (inertia Y)) (1 / 100000) then true else false)
          || (if Rlt_dec (s2 (inertia Y)) (1 / 100000) then true else false) || (if Rlt_dec (s5 (inertia Y)) (1 / 100000) then true else false)))
    (seq 1 (m_njoints m - 1)).
(* default-check.hpp 13-27 Model::check(): AlgorithmCheckerList (check-model.hxx 69-75) is a conjunction *)
Definition modelCheck (m : Model) : bool := parentCheck m && crbaCheck m && abaCheck m.
