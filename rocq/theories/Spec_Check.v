(* Vocabulary of the statements about the consistency checks. *)
Require Import Reals List Arith ZArith.
From Verif Require Import Vec3 Spatial Inertia Joints Model Spec_Model Data CheckData.
Local Open Scope nat_scope.

(* b is the last joint of the subtree of joint j *)
Definition lastOf (m : Model) (j b : nat) : Prop := b < m_njoints m /\ onPath m j b /\ forall c, c < m_njoints m -> onPath m j c -> c <= b.
(* number of degrees of freedom of the joints of the subtree of j *)
Definition subtreeDofs (m : Model) (j : nat) : nat := sum (map (nvOf m) (subtree m j)).
(* the tables of a Data that the algorithms follow are right for the model: the end and the size of each subtree, and the row
   that precedes the first row of a joint on the way to the universe *)
Record tablesRight (m : Model) (s : Shape) : Prop := {
  tr_last : forall j, 0 < j < m_njoints m -> exists b, nth j (s_last s) 0%Z = Z.of_nat b /\ lastOf m j b;
  tr_dofs : forall j, 0 < j < m_njoints m -> nth j (s_nvs s) 0%Z = Z.of_nat (subtreeDofs m j) /\ nth (idx_v m j) (s_nvr s) 0%Z = Z.of_nat (subtreeDofs m j);
  tr_rows : forall j, 0 < j < m_njoints m -> nth (idx_v m j) (s_par s) 0%Z =
    if parent m j =? 0 then (-1)%Z else (Z.of_nat (idx_v m (parent m j) + nvOf m (parent m j)) - 1)%Z }.
(* the two models have the same tree, joint by joint, with the same dimensions *)
Definition sameTree (m m' : Model) : Prop := m_njoints m = m_njoints m' /\ m_nv m = m_nv m' /\ m_nframes m = m_nframes m' /\
  forall j, 0 < j < m_njoints m -> parent m j = parent m' j /\ nvOf m j = nvOf m' j /\ idx_v m j = idx_v m' j.
(* every moving body is heavy enough for the articulated-body algorithm: mass and diagonal of the rotational inertia *)
Definition heavyBodies (m : Model) : Prop := forall j, 0 < j < m_njoints m ->
  (1 / 100000 <= mass (inertiaOf m j))%R /\ (1 / 100000 <= s0 (inertia (inertiaOf m j)))%R /\
  (1 / 100000 <= s2 (inertia (inertiaOf m j)))%R /\ (1 / 100000 <= s5 (inertia (inertiaOf m j)))%R.
(* every container that the algorithms index has the size required by the model *)
Definition sizesRight (m : Model) (s : Shape) : Prop :=
  Forall (eq (m_njoints m)) (n_joints s :: n_a s :: n_a_gf s :: n_v s :: n_f s :: n_oMi s :: n_liMi s :: n_Ycrb s :: n_Yaba s :: length (c_Fcrb s) ::
    n_iMf s :: n_com s :: n_vcom s :: n_acom s :: n_mass s :: length (s_last s) :: length (s_nvs s) :: nil) /\
  Forall (eq (m_nv m)) (n_tau s :: n_nle s :: n_ddq s :: n_u s :: r_M s :: c_M s :: c_Ag s :: c_U s :: r_U s :: n_D s :: c_Jcom s :: n_res s :: n_dqa s ::
    h1 s :: h2 s :: c_Fcrb s) /\
  Forall (eq (m_nvE m)) (c_J s :: length (s_par s) :: length (s_mim s) :: length (s_non s) :: n_red s :: length (s_nvr s) :: n_start s :: n_end s :: nil) /\
  m_nv m <= n_tmp s /\ h0 s = 6 /\ n_oMf s = m_nframes m.
