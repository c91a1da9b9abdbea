(** * IntSet: intset.go and intset_iter.go. *)
From Verif Require Import Base Bits Env Node Iter Tree SetApi MapApi ExtraFacts.
Local Open Scope Z_scope.

(** intset_iter.go:3-5 [integer]: one of Go's integer types, given by signedness and width in bits
    (8, 16, 32 or 64). Values are in [Z]. *)
Record intTy := mkIT { it_signed : bool; it_width : Z }.
(** The smallest value of the type. *)
Definition it_min (I : intTy) : Z := if it_signed I then - 2 ^ (it_width I - 1) else 0.
(** The values of the type. *)
Definition it_in (I : intTy) (i : Z) : Prop := it_min I <= i < it_min I + 2 ^ it_width I.
(** Go's wrap-around of arithmetic results into the type. *)
Definition it_wrap (I : intTy) (i : Z) : Z := it_min I + (i - it_min I) mod 2 ^ it_width I.

(** intset.go:18 [cellMask]: [==] on cells; the hash of a cell is never used. *)
#[global] Instance cellKey : Key N := {| veq := N.eqb; vhash := fun _ _ => 0%N |}.
#[global] Instance zeroCell : Zero N := {| zero := 0%N |}.

(** intset.go:13-16 [IntSet]. *)
Record intSet := mkIS { is_data : gomap Z N; is_cnt : Z }.

(** intset.go:247-249 [count]. *)
Definition cell_count (c : N) : Z := Z.of_nat (popcount 64 c).
(** intset.go:243-245 [diffCount]. *)
Definition cell_diffCount (c c2 : N) : Z := cell_count (N.lxor c c2).
(** intset.go:251-253 [index]. *)
Definition cell_index (c : N) : Z := Z.of_nat (ctz 64 c).
(** intset.go:255-257 [next]. *)
Definition cell_next (c : N) : N := strip_low 64 c.

(** intset.go:25-27 [locateCell]. [i % 64] is the truncated remainder; converted to [uint], a
    negative remainder becomes at least [2^63], and shifting a 64-bit word that far gives 0. *)
Definition locateCell (i : Z) : Z * N :=
  let r := Z.rem i 64 in
  (Z.shiftr i 6, if r <? 0 then 0%N else wshl 64 1 (Z.to_N r)).

(** Reading a Go map: the zero value if the key is absent. *)
Definition go_get (g : list (Z * N)) (k : Z) : N :=
  match find (fun kv => fst kv =? k) g with Some kv => snd kv | None => 0%N end.

Section IntSet.
Context {E : Env} (I : intTy) (h : Z -> N -> N).
#[local] Instance isK : Key Z := intKey h.

(** The zero value [IntSet[I]{}]. *)
Definition is_empty : intSet := mkIS m_empty 0.

(** intset.go:30-43 [NewIntSet]. [ord] is the order in which [range m] visits the Go map (any
    permutation). *)
Definition is_new (ord : list (Z * N) -> list (Z * N)) (l : list Z) : res intSet :=
  let m := fold_left (fun m i =>
    let '(cellIndex, bitMask) := locateCell i in
    go_put Z.eqb m cellIndex (N.lor (go_get m cellIndex) bitMask)) l [] in
  '(b, count) <- foldM (fun bc kv =>
      b <- mb_put (fst bc) (fst kv) (snd kv) ;; Ok (b, snd bc + cell_count (snd kv)))
    (newMapBuilder (Z.of_nat (length m)), 0) (ord m) ;;
  Ok (mkIS (fst (mb_finish b)) count).

(** intset.go:46-48 [IsEmpty]. *)
Definition is_isEmpty (s : intSet) : bool := m_isEmpty (is_data s).
(** intset.go:51-53 [Count]. *)
Definition is_count (s : intSet) : Z := is_cnt s.

(** intset_iter.go:7-11 [intSetIterator]. *)
Record intIter := mkII { ii_it : @mapIter Z N; ii_cell : N; ii_first : Z }.
(** intset.go:56-61 [Range]. *)
Definition is_range (s : intSet) : intIter := mkII (m_range (is_data s)) 1 0.
(** intset_iter.go:13-22 [Next]. *)
Definition ii_next (i : intIter) : res (bool * intIter) :=
  let cell := cell_next (ii_cell i) in
  if (cell =? 0)%N then
    '(ok, it) <- mi_next (ii_it i) ;;
    if (ok : bool) then
      match mi_entry it with
      | Some (k, v) => Ok (true, mkII it v k)
      | None => Panic
      end
    else Ok (false, mkII it cell (ii_first i))
  else Ok (true, mkII (ii_it i) cell (ii_first i)).
(** intset.go:78 and intset_iter.go:24-26: [cellIndex<<cellShift + I(bit)]. *)
Definition cell_value (k bit : Z) : Z := it_wrap I (it_wrap I (Z.shiftl k 6) + bit).
(** intset_iter.go:24-26 [Value]. *)
Definition ii_value (i : intIter) : Z := cell_value (ii_first i) (cell_index (ii_cell i)).

(** [for i := s.Range(); i.Next(); { ... i.Value() ... }]: the values seen. *)
Fixpoint ii_drain (fuel : nat) (i : intIter) : res (list Z) :=
  match fuel with
  | O => Fuel
  | S k =>
      '(ok, i') <- ii_next i ;;
      if (ok : bool) then l <- ii_drain k i' ;; Ok (ii_value i' :: l) else Ok []
  end.
(** intset.go:64-70 [Elements]. (Each cell gives at most 64 values; this is only used as recursion
    fuel.) *)
Definition is_elements (s : intSet) : res (list Z) :=
  ii_drain (S (64 * length (elemso (t_root (m_tree (is_data s)))))) (is_range s).

(** intset.go:75-79 [Any]. *)
Definition is_any (s : intSet) : res Z :=
  '(cellIndex, cell) <- m_any (is_data s) ;; Ok (cell_value cellIndex (cell_index cell)).

(** intset.go:106-111 [Hash]. *)
Definition is_hash (s : intSet) (seed : N) : res N :=
  l <- is_elements s ;; Ok (fold_left (fun seed i => N.lxor seed (vhash i 0%N)) l seed).

(** intset.go:119-121 [Equal] (also 114-116 [EqualSet]). *)
Definition is_equal (s t : intSet) : res bool := m_equal (is_data s) (is_data t).
(** intset.go:124-129 [Same]: [a] is [Some t] if its dynamic type is [IntSet[I]]. *)
Definition is_same (s : intSet) (a : option intSet) : res bool :=
  match a with Some t => is_equal s t | None => Ok false end.

(** intset.go:133-139: the loop of [IsSubsetOf]. *)
Fixpoint subset_loop (t : intSet) (l : list (Z * N)) : res bool :=
  match l with
  | [] => Ok true
  | (k, sCell) :: l' =>
      o <- m_get (is_data t) k ;;
      match o with
      | None => Ok false
      | Some tCell => if (N.ldiff sCell tCell =? 0)%N then subset_loop t l' else Ok false
      end
  end.
(** intset.go:132-140 [IsSubsetOf]. Simplification: the entries are collected before the loop rather
    than during it. *)
Definition is_isSubsetOf (s t : intSet) : res bool :=
  l <- m_entries (is_data s) ;; subset_loop t l.

(** intset.go:237-241 [locate]. *)
Definition is_locate (s : intSet) (i : Z) : res (N * Z * N) :=
  let '(cellIndex, bitMask) := locateCell i in
  o <- m_get (is_data s) cellIndex ;;
  Ok (match o with Some c => c | None => zero end, cellIndex, bitMask).

(** intset.go:143-146 [Has]. *)
Definition is_has (s : intSet) (i : Z) : res bool :=
  '(cell, _, bitMask) <- is_locate s i ;; Ok (negb (N.land cell bitMask =? 0)%N).

(** intset.go:149-155 [With]. *)
Definition is_with (s : intSet) (i : Z) : res intSet :=
  '(cell, cellIndex, bitMask) <- is_locate s i ;;
  if (N.land cell bitMask =? 0)%N then
    d <- m_with (is_data s) cellIndex (N.lor cell bitMask) ;; Ok (mkIS d (is_cnt s + 1))
  else Ok s.

(** intset.go:158-169 [Without]. *)
Definition is_without (s : intSet) (i : Z) : res intSet :=
  '(cell, cellIndex, bitMask) <- is_locate s i ;;
  if (N.land cell bitMask =? 0)%N then Ok s
  else
    let cell := N.ldiff cell bitMask in
    d <- (if (cell =? 0)%N then m_without (is_data s) cellIndex else m_with (is_data s) cellIndex cell) ;;
    Ok (mkIS d (is_cnt s - 1)).

(** intset.go:178-186: the part of [cell] that satisfies [pred]. *)
Definition where_cell (pred : Z -> bool) (cellIndex : Z) (cell : N) : N :=
  let cellOffset := it_wrap I (cellIndex * 64) in
  fold_left (fun newCell maskIndex =>
      if pred (it_wrap I (cellOffset + Z.of_nat maskIndex))
      then N.lor newCell (wshl 64 1 (N.of_nat maskIndex)) else newCell)
    (bit_loop 64 64 cell) 0%N.

(** intset.go:187-190 and 210-213: put a cell into the result unless it is 0. *)
Definition put_cell (bc : mapBuilder Z N * Z) (k : Z) (cell : N) : res (mapBuilder Z N * Z) :=
  if (cell =? 0)%N then Ok bc
  else b <- mb_put (fst bc) k cell ;; Ok (b, snd bc + cell_count cell).

(** intset.go:172-193 [Where]. *)
Definition is_where (s : intSet) (pred : Z -> bool) : res intSet :=
  l <- m_entries (is_data s) ;;
  '(b, count) <- foldM (fun bc kv => put_cell bc (fst kv) (where_cell pred (fst kv) (snd kv)))
                   (mkMB emptyTree, 0) l ;;
  Ok (mkIS (fst (mb_finish b)) count).

(** intset.go:196-202 [Map]. *)
Definition is_map (ord : list (Z * N) -> list (Z * N)) (s : intSet) (f : Z -> Z) : res intSet :=
  l <- is_elements s ;; is_new ord (map f l).

(** intset.go:205-217 [Intersection]. *)
Definition is_intersection (s t : intSet) : res intSet :=
  l <- m_entries (is_data t) ;;
  '(b, count) <- foldM (fun bc kv =>
      o <- m_get (is_data s) (fst kv) ;;
      match o with
      | Some sCell => put_cell bc (fst kv) (N.land sCell (snd kv))
      | None => Ok bc
      end) (mkMB emptyTree, 0) l ;;
  Ok (mkIS (fst (mb_finish b)) count).

(** intset.go:224-233: one round of the loop of [Union]. *)
Definition union_step (s : intSet) (uc : gomap Z N * Z) (kv : Z * N) : res (gomap Z N * Z) :=
  let '(unionMap, count) := uc in
  o <- m_get (is_data s) (fst kv) ;;
  let '(unionCell, count) :=
    match o with
    | Some sCell =>
        let u := N.lor sCell (snd kv) in (u, count + cell_diffCount u sCell)
    | None => (snd kv, count + cell_count (snd kv))
    end in
  d <- m_with unionMap (fst kv) unionCell ;; Ok (d, count).
(** intset.go:220-235 [Union]. *)
Definition is_union (s t : intSet) : res intSet :=
  l <- m_entries (is_data t) ;;
  '(d, count) <- foldM (union_step s) (is_data s, is_cnt s) l ;;
  Ok (mkIS d count).
End IntSet.
