(* multibody/geometry.hxx, multibody/geometry.hpp and algorithm/geometry.hxx: geometry models, collision pairs, geometry data. *)
Require Import Reals String List Arith ZArith Bool Lia.
From Verif Require Import Vec3 Spatial Model Data.
Import ListNotations.
Local Open Scope nat_scope.

(* multibody/geometry-object.hpp 95-170: the mesh, its colours and its material are not modelled *)
Record GObj := mkGObj { go_name : string; go_parentFrame : nat; go_parentJoint : nat; go_placement : SE3; go_disable : bool }.
Definition go_setJoint (o : GObj) (j : nat) : GObj := mkGObj (go_name o) (go_parentFrame o) j (go_placement o) (go_disable o).

(* geometry.hpp 60-250 (the data members).  collisionPairMapping is a square matrix of ints; an entry that
   conservativeResize has created and nobody has written is None. The ints are unbounded here. *)
Record GMap := mkGMap { gm_size : nat; gm_at : nat -> nat -> option Z }.
Record GModel := mkGModel { g_ngeoms : nat; g_objs : list GObj; g_pairs : list (nat * nat); g_map : GMap }.
(* geometry.hpp 76-81 *)
Definition gEmpty : GModel := mkGModel 0 [] [] (mkGMap 0 (fun _ _ => None)).

Definition gBind {A B : Type} (r : Res GModel A) (f : GModel -> A -> Res GModel B) : Res GModel B :=
  match r with Ok s a => f s a | Throw s => Throw s | Undef => Undef end.
Fixpoint gFor (l : list nat) (f : GModel -> nat -> Res GModel unit) (g : GModel) : Res GModel unit :=
  match l with [] => Ok g tt | i :: r => gBind (f g i) (fun g _ => gFor r f g) end.

(* matrix access: Eigen's bound checks are assertions, so an access out of range is undefined, as is reading an
   uninitialised entry *)
Definition mapRead (M : GMap) (i j : nat) : option Z := if (i <? gm_size M) && (j <? gm_size M) then gm_at M i j else None.
Definition mapPut (M : GMap) (i j : nat) (z : Z) : GMap :=
  mkGMap (gm_size M) (fun a b => if (a =? i) && (b =? j) then Some z else gm_at M a b).
(* conservativeResize(n, n): the common block is kept *)
Definition mapResize (M : GMap) (n : nat) : GMap :=
  mkGMap n (fun a b => if (a <? gm_size M) && (b <? gm_size M) then gm_at M a b else None).
(* col(i).fill(z), row(i).fill(z); fill(z) *)
Definition mapFillCross (M : GMap) (i : nat) (z : Z) : GMap :=
  mkGMap (gm_size M) (fun a b => if (a =? i) || (b =? i) then Some z else gm_at M a b).
Definition mapFill (M : GMap) (z : Z) : GMap := mkGMap (gm_size M) (fun _ _ => Some z).
Definition gSetMap (g : GModel) (M : GMap) : GModel := mkGModel (g_ngeoms g) (g_objs g) (g_pairs g) M.
Definition gSetPairs (g : GModel) (l : list (nat * nat)) : GModel := mkGModel (g_ngeoms g) (g_objs g) l (g_map g).
Definition mapWrite2 (g : GModel) (i j : nat) (z : Z) : Res GModel unit :=
  if (i <? gm_size (g_map g)) && (j <? gm_size (g_map g)) then Ok (gSetMap g (mapPut (mapPut (g_map g) j i z) i j z)) tt else Undef.

(* 38-42: the constructor CollisionPair(co1, co2) *)
Definition CollisionPair (g : GModel) (a b : nat) : Res GModel (nat * nat) := if a =? b then Throw g else Ok g (a, b).
(* 44-48 *)
Definition pairEq (p q : nat * nat) : bool :=
  ((fst p =? fst q) && (snd p =? snd q)) || ((fst p =? snd q) && (snd p =? fst q)).

(* 189-200 *)
Definition addGeometryObject (g : GModel) (o : GObj) : Res GModel nat :=
  let idx := g_ngeoms g in
  Ok (mkGModel (S idx) (g_objs g ++ [o]) (g_pairs g) (mapFillCross (mapResize (g_map g) (idx + 1)) idx (-1))) idx.
(* 168-187; 179 reads model.frames[parentFrame] even when 172 has found the index out of range *)
Definition addGeometryObjectTo (m : Model) (g : GModel) (o : GObj) : Res GModel nat :=
  match nth_error (m_frames m) (go_parentFrame o) with
  | None => Undef
  | Some f => if (go_parentFrame o <? m_nframes m) && negb (fr_parentJoint f =? go_parentJoint o) then Throw g
              else addGeometryObject g (go_setJoint o (fr_parentJoint f))
  end.
(* 406-410 *)
Definition existCollisionPair (g : GModel) (p : nat * nat) : Res GModel bool :=
  match mapRead (g_map g) (fst p) (snd p) with None => Undef | Some z => Ok g (negb (z =? -1)%Z) end.
(* 412-419; the conversion of a negative int to PairIndex does not occur *)
Definition findCollisionPair (g : GModel) (p : nat * nat) : Res GModel nat :=
  match mapRead (g_map g) (fst p) (snd p) with None => Undef
  | Some z => if (z =? -1)%Z then Ok g (length (g_pairs g)) else Ok g (Z.to_nat z) end.
(* 306-325 *)
Definition addCollisionPair (g : GModel) (p : nat * nat) : Res GModel unit :=
  if negb (fst p <? g_ngeoms g) then Throw g else if negb (snd p <? g_ngeoms g) then Throw g else
  gBind (existCollisionPair g p) (fun g e => if e then Ok g tt else
    let g := gSetPairs g (g_pairs g ++ [p]) in
    mapWrite2 g (fst p) (snd p) (Z.of_nat (length (g_pairs g)) - 1)).
(* 400-404 *)
Definition removeAllCollisionPairs (g : GModel) : GModel := gSetMap (gSetPairs g []) (mapFill (g_map g) (-1)).
(* 354-367; geometryObjects[i] is out of range when ngeoms is larger than the vector *)
Definition jointOf (g : GModel) (i : nat) : option nat := option_map go_parentJoint (nth_error (g_objs g) i).
Definition addAllCollisionPairs (g : GModel) : Res GModel unit :=
  gFor (seq 0 (g_ngeoms g)) (fun g i => gFor (seq (i + 1) (g_ngeoms g - (i + 1))) (fun g j =>
    match jointOf g i, jointOf g j with
    | Some a, Some b => if negb (a =? b) then gBind (CollisionPair g i j) addCollisionPair else Ok g tt
    | _, _ => Undef end) g) (removeAllCollisionPairs g).
(* 327-352; map is given by its numbers of rows and columns and its entries *)
Definition setCollisionPairs (g : GModel) (rows cols : nat) (map : nat -> nat -> bool) (upper : bool) : Res GModel unit :=
  if negb (rows =? g_ngeoms g) then Throw g else if negb (cols =? g_ngeoms g) then Throw g else
  gFor (seq 0 (g_ngeoms g)) (fun g i => gFor (seq (i + 1) (g_ngeoms g - (i + 1))) (fun g j =>
    if (if upper then map i j else map j i) then gBind (CollisionPair g i j) addCollisionPair else Ok g tt) g) (removeAllCollisionPairs g).
(* 386-396: the entries behind the removed one are decremented *)
Definition shiftMapping (index : Z) (g : GModel) : Res GModel unit :=
  gFor (seq 0 (gm_size (g_map g))) (fun g i => gFor (seq (i + 1) (gm_size (g_map g) - (i + 1))) (fun g j =>
    match mapRead (g_map g) i j with None => Undef
    | Some z => if (index <? z)%Z then mapWrite2 g i j (z - 1) else Ok g tt end) g) g.
Definition removeNth {A} (k : nat) (l : list A) : list A := firstn k l ++ skipn (S k) l.
(* 369-398 *)
Definition removeCollisionPair (g : GModel) (p : nat * nat) : Res GModel unit :=
  if negb (fst p <? g_ngeoms g) then Throw g else if negb (snd p <? g_ngeoms g) then Throw g else
  gBind (findCollisionPair g p) (fun g index =>
    if index =? length (g_pairs g) then Ok g tt else
    gBind (mapWrite2 g (fst p) (snd p) (-1)) (fun g _ =>
      if index <? length (g_pairs g) then shiftMapping (Z.of_nat index) (gSetPairs g (removeNth index (g_pairs g))) else Undef)).

(* 204-212, 243-246: position of the first object with that name, the number of objects when there is none *)
Fixpoint findName (name : string) (l : list GObj) : nat :=
  match l with [] => 0 | o :: r => if String.eqb (go_name o) name then 0 else S (findName name r) end.
Definition getGeometryId (g : GModel) (name : string) : nat := findName name (g_objs g).
(* 249-258 *)
Definition existGeometryName (g : GModel) (name : string) : bool := findName name (g_objs g) <? length (g_objs g).
(* 227-232 *)
Definition reindex (i : nat) (p : nat * nat) : nat * nat :=
  (if i <? fst p then fst p - 1 else fst p, if i <? snd p then snd p - 1 else snd p).
Definition mentions (i : nat) (p : nat * nat) : bool := (fst p =? i) || (snd p =? i).
(* 217-233: [k] is the position of itCol; 223 decrements an iterator, undefined when it is begin(). [fuel] bounds the number of turns. *)
Fixpoint erasePairs (fuel : nat) (i k : nat) (l : list (nat * nat)) : option (list (nat * nat)) :=
  match fuel with O => Some l | S fuel =>
    match nth_error l k with
    | None => Some l
    | Some p => if mentions i p then
                  let l := removeNth k l in
                  if k =? 0 then None else erasePairs fuel i (k - 1 + 1) l
                else erasePairs fuel i (k + 1) (firstn k l ++ reindex i p :: skipn (S k) l)
    end end.
(* 202-236 *)
Definition removeGeometryObject (g : GModel) (name : string) : Res GModel unit :=
  let i := findName name (g_objs g) in
  if i =? length (g_objs g) then Throw g else
  match erasePairs (length (g_pairs g)) i 0 (g_pairs g) with None => Undef
  | Some l => Ok (mkGModel (g_ngeoms g - 1) (removeNth i (g_objs g)) l (g_map g)) tt end.

(* algorithm/geometry.hxx 56-89; the constructor of the pairs never throws there: the indexes differ *)
Definition appendGeometryModel (g h : GModel) : Res GModel unit :=
  let n1 := length (g_objs g) in let n2 := length (g_objs h) in
  let objs := g_objs g ++ g_objs h in
  let p2 := map (fun p => (fst p + n1, snd p + n1)) (g_pairs h) in
  let cross := flat_map (fun i => flat_map (fun j =>
                 match nth_error objs i, nth_error objs j with
                 | Some a, Some b => if negb (go_parentJoint a =? go_parentJoint b) then [(i, j)] else []
                 | _, _ => [] end) (seq n1 n2)) (seq 0 n1) in
  if existsb (fun p => fst p =? snd p) p2 then Throw (mkGModel (g_ngeoms g + n2) objs (g_pairs g) (g_map g))
  else Ok (mkGModel (g_ngeoms g + n2) objs (g_pairs g ++ p2 ++ cross) (g_map g)) tt.

(* ---- GeometryData ---- *)
(* geometry.hpp 260-380; only the placements and the flags of the pairs *)
Record GData := mkGData { gd_oMg : nat -> SE3; gd_active : list bool }.
Definition setActive (d : GData) (l : list bool) : GData := mkGData (gd_oMg d) l.
(* 82-95: the placements are default constructed, that is, uninitialised: the parameter [u] *)
Definition createGData (u : nat -> SE3) (g : GModel) : GData := mkGData u (repeat true (length (g_pairs g))).
Definition putNth {A} (k : nat) (x : A) (l : list A) : list A := firstn k l ++ (match nth_error l k with Some _ => [x] | None => [] end) ++ skipn (S k) l.
(* 421-428, 525-532 *)
Definition switchPair (b : bool) (d : GData) (k : nat) : Res GData unit :=
  if negb (k <? length (gd_active d)) then Throw d else Ok (setActive d (putNth k b (gd_active d))) tt.
Definition activateCollisionPair := switchPair true.
Definition deactivateCollisionPair := switchPair false.
(* 430-433, 534-537 *)
Definition activateAllCollisionPairs (d : GData) : GData := setActive d (repeat true (length (gd_active d))).
Definition deactivateAllCollisionPairs (d : GData) : GData := setActive d (repeat false (length (gd_active d))).
(* loop over the pairs that assigns flags *)
Definition onPairs (f : nat * nat -> bool -> bool) (g : GModel) (d : GData) : GData :=
  fold_left (fun d k => match nth_error (g_pairs g) k, nth_error (gd_active d) k with
     | Some p, Some b => setActive d (putNth k (f p b) (gd_active d)) | _, _ => d end) (seq 0 (length (g_pairs g))) d.
(* 435-465 *)
Definition setActiveCollisionPairs (g : GModel) (d : GData) (rows cols : nat) (map : nat -> nat -> bool) (upper : bool) : Res GData unit :=
  if negb (rows =? g_ngeoms g) then Throw d else if negb (cols =? g_ngeoms g) then Throw d else
  if negb (length (g_pairs g) =? length (gd_active d)) then Throw d else
  Ok (onPairs (fun p _ => let hi := Nat.max (fst p) (snd p) in let lo := Nat.min (fst p) (snd p) in
                 if upper then map lo hi else map hi lo) g d) tt.
(* 467-484 *)
Definition setGeometryCollisionStatus (g : GModel) (d : GData) (i : nat) (enable : bool) : Res GData unit :=
  if negb (i <? g_ngeoms g) then Throw d else
  if negb (length (g_pairs g) =? length (gd_active d)) then Throw d else
  Ok (onPairs (fun p b => if (fst p =? i) || (snd p =? i) then enable else b) g d) tt.

(* algorithm/geometry.hxx 34-52. Simplification: objects beyond the vector (ngeoms larger than its size) are skipped. *)
Definition updateGeometryPlacements (d : Data) (g : GModel) (gd : GData) : GData :=
  fold_left (fun gd i => match nth_error (g_objs g) i with
     | None => gd
     | Some o => let x := if 0 <? go_parentJoint o then se3_mul (pl (rows d (go_parentJoint o)) F_oMi) (go_placement o) else go_placement o in
                 mkGData (fun k => if k =? i then x else gd_oMg gd k) (gd_active gd) end) (seq 0 (g_ngeoms g)) gd.
