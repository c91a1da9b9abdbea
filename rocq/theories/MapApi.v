(** * MapApi: map.go, mapEntry.go, map_builder.go, map_extra.go, kv.go and set.go:337-357. *)
From Verif Require Import Base Bits Env Node Iter Tree SetApi.
Local Open Scope Z_scope.

(** The zero value of a Go type ([var v V]). *)
Class Zero (V : Type) := { zero : V }.

(** kv.go:13-16 [KeyValue]. *)
Record keyValue (X V : Type) := mkKV { kv_key : X; kv_val : V }.
Arguments mkKV {X V} _ _.
Arguments kv_key {X V} _.
Arguments kv_val {X V} _.

(** kv.go:24-26 [Hash] and 40-42 [Equal]. *)
#[global] Instance kvKey {X V} {KX : Key X} {KV : Key V} : Key (keyValue X V) := {
  veq := fun a b => (veq (kv_key a) (kv_key b) && veq (kv_val a) (kv_val b))%bool;
  vhash := fun e seed => vhash (kv_key e) seed;
}.

(** kv.go:44-47 [Same]: [a] is [Some kv2] if its dynamic type is [KeyValue[K, V]]. *)
Definition kv_same {X V} {KX : Key X} {KV : Key V} (kv : keyValue X V) (a : option (keyValue X V)) : bool :=
  match a with Some kv2 => veq kv kv2 | None => false end.

(** mapEntry.go:9-11 [mapEntry]. *)
Record entry (X V : Type) := mkEntry { e_key : X; e_val : V }.
Arguments mkEntry {X V} _ _.
Arguments e_key {X V} _.
Arguments e_val {X V} _.

(** mapEntry.go:22-24 [Equal] (also 37-39 [mapEntryKeyEqual]) and 27-29 [Hash] (also 42-44). *)
#[global] Instance entryKey {X V} {KX : Key X} : Key (entry X V) := {
  veq := fun a b => veq (e_key a) (e_key b);
  vhash := fun e seed => vhash (e_key e) seed;
}.

(** map.go:15-17 [Map]. *)
Record gomap (X V : Type) := mkMap { m_tree : tree (entry X V) }.
Arguments mkMap {X V} _.
Arguments m_tree {X V} _.

(** map_builder.go:8-10 [MapBuilder]. *)
Record mapBuilder (X V : Type) := mkMB { mb_tree : tree (entry X V) }.
Arguments mkMB {X V} _.
Arguments mb_tree {X V} _.

Section MapApi.
Context {E : Env} {X V : Type} {KX : Key X} {ZV : Zero V}.
Notation entry := (entry X V).
Notation gomap := (gomap X V).
Notation mapBuilder := (mapBuilder X V).

(** mapEntry.go:13-15 [newMapEntry]. *)
Definition newMapEntry (k : X) (v : V) : entry := mkEntry k v.
(** mapEntry.go:17-20 [newMapKey]. *)
Definition newMapKey (k : X) : entry := mkEntry k zero.
(** mapEntry.go:32-34 [mapEntryEqual]. *)
Definition mapEntryEqual {KV : Key V} (a b : entry) : bool :=
  (veq (e_key a) (e_key b) && veq (e_val a) (e_val b))%bool.

(** The zero value [Map[K, V]{}]. *)
Definition m_empty : gomap := mkMap emptyTree.

(** ** map_builder.go *)

(** map_builder.go:12-14 [NewMapBuilder]. *)
Definition newMapBuilder (capacity : Z) : mapBuilder := mkMB emptyTree.
(** map_builder.go:17-19 [Count]. *)
Definition mb_count (b : mapBuilder) : Z := t_count (mb_tree b).
(** map_builder.go:22-24 [Put]. *)
Definition mb_put (b : mapBuilder) (k : X) (v : V) : res mapBuilder :=
  rmap mkMB (b_add (mb_tree b) (newMapEntry k v)).
(** map_builder.go:27-29 [Remove]. *)
Definition mb_remove (b : mapBuilder) (k : X) : res mapBuilder :=
  rmap mkMB (b_remove (mb_tree b) (newMapKey k)).
(** map_builder.go:38-44 [Get]; [None] is [(zero, false)]. *)
Definition mb_get (b : mapBuilder) (k : X) : res (option V) :=
  rmap (option_map e_val) (b_get (mb_tree b) (newMapKey k)).
(** map_builder.go:31-34 [Has]. *)
Definition mb_has (b : mapBuilder) (k : X) : res bool := rmap isSome (mb_get b k).
(** map_builder.go:48-50 [Finish]: the map, and the builder afterwards. *)
Definition mb_finish (b : mapBuilder) : gomap * mapBuilder :=
  let '(t, b') := b_finish (mb_tree b) in (mkMap t, mkMB b').

(** [for _, kv := range l { b.Put(kv.k, kv.v) }]. *)
Definition mb_putAll (b : mapBuilder) (l : list (X * V)) : res mapBuilder :=
  foldM (fun b kv => mb_put b (fst kv) (snd kv)) b l.

(** ** map.go *)

(** map.go:24-30 [NewMap]. *)
Definition m_new (kvs : list (keyValue X V)) : res gomap :=
  b <- foldM (fun b kv => mb_put b (kv_key kv) (kv_val kv))
         (newMapBuilder (Z.of_nat (length kvs))) kvs ;;
  Ok (fst (mb_finish b)).

(** map.go:33-40 [NewMapFromKeys]. *)
Definition m_fromKeys (keys : set X) (f : X -> V) : res gomap :=
  ks <- s_elements keys ;;
  b <- foldM (fun b k => mb_put b k (f k)) (newMapBuilder (s_count keys)) ks ;;
  Ok (fst (mb_finish b)).

(** map.go:43-49 [NewMapFromGoMap]: [m] lists the entries of the Go map in the order in which this
    [range] visits them (any order). *)
Definition m_fromGoMap (m : list (X * V)) : res gomap :=
  b <- mb_putAll (newMapBuilder (Z.of_nat (length m))) m ;; Ok (fst (mb_finish b)).

(** map.go:52-54 [IsEmpty]. *)
Definition m_isEmpty (m : gomap) : bool := t_count (m_tree m) =? 0.
(** map.go:57-59 [Count]. *)
Definition m_count (m : gomap) : Z := t_count (m_tree m).

(** map.go:276-279 [MapIterator]. *)
Record mapIter := mkMI { mi_i : iter entry; mi_kv : option entry }.
(** map.go:266-268 [Range]; [None] stands for the zero value of the [kv] field. *)
Definition m_range (m : gomap) : mapIter := mkMI (t_iterator (m_tree m)) None.
(** map.go:282-288 [Next]. *)
Definition mi_next (it : mapIter) : res (bool * mapIter) :=
  '(ok, i') <- i_next (mi_i it) ;;
  if (ok : bool) then v <- i_value i' ;; Ok (true, mkMI i' (Some v))
  else Ok (false, mkMI i' (mi_kv it)).
(** map.go:301-303 [Entry] (291-293 [Key], 296-298 [Value]), after a successful [Next]. *)
Definition mi_entry (it : mapIter) : option (X * V) :=
  option_map (fun e => (e_key e, e_val e)) (mi_kv it).

(** [for i := m.Range(); i.Next(); { k, v := i.Entry() ... }]: the entries seen. *)
Fixpoint mi_drain (fuel : nat) (it : mapIter) : res (list (X * V)) :=
  match fuel with
  | O => Fuel
  | S k =>
      '(ok, it') <- mi_next it ;;
      if (ok : bool) then
        match mi_entry it' with
        | Some e => l <- mi_drain k it' ;; Ok (e :: l)
        | None => Panic
        end
      else Ok []
  end.
(** (The number of entries is only used as recursion fuel.) *)
Definition m_entries (m : gomap) : res (list (X * V)) :=
  mi_drain (S (length (elemso (t_root (m_tree m))))) (m_range m).

(** map.go:62-67 [Any]. *)
Definition m_any (m : gomap) : res (X * V) :=
  '(ok, it) <- mi_next (m_range m) ;;
  if (ok : bool) then match mi_entry it with Some e => Ok e | None => Panic end else Panic.

(** map.go:71-74 [With]. *)
Definition m_with (m : gomap) (k : X) (v : V) : res gomap :=
  rmap mkMap (t_with (m_tree m) (newMapEntry k v)).
(** map.go:78-81 [Without]. *)
Definition m_without (m : gomap) (k : X) : res gomap :=
  rmap mkMap (t_without (m_tree m) (newMapKey k)).
(** map.go:90-95 [Get]; [None] is [(zero, false)]. *)
Definition m_get (m : gomap) (k : X) : res (option V) :=
  rmap (option_map e_val) (t_get (m_tree m) (newMapKey k)).
(** map.go:84-87 [Has]. *)
Definition m_has (m : gomap) (k : X) : res bool := rmap isSome (m_get m k).
(** map.go:99-104 [MustGet]. *)
Definition m_mustGet (m : gomap) (k : X) : res V :=
  o <- m_get m k ;; match o with Some v => Ok v | None => Panic end.
(** map.go:108-113 [GetElse]. *)
Definition m_getElse (m : gomap) (k : X) (deflt : V) : res V :=
  o <- m_get m k ;; match o with Some v => Ok v | None => Ok deflt end.
(** map.go:117-122 [GetElseFunc]. *)
Definition m_getElseFunc (m : gomap) (k : X) (deflt : unit -> res V) : res V :=
  o <- m_get m k ;; match o with Some v => Ok v | None => deflt tt end.

(** map.go:125-131 [Keys]. *)
Definition m_keys (m : gomap) : res (set X) :=
  l <- m_entries m ;;
  b <- foldM (fun b kv => sb_add b (fst kv)) (mkSB emptyTree) l ;;
  Ok (fst (sb_finish b)).
(** map.go:134-140 [Values]. *)
Definition m_values {KV : Key V} (m : gomap) : res (set V) :=
  l <- m_entries m ;;
  b <- foldM (fun b kv => sb_add b (snd kv)) (mkSB emptyTree) l ;;
  Ok (fst (sb_finish b)).

(** map.go:143-151 [Project]. *)
Definition m_project (m : gomap) (keys : list X) : res gomap :=
  b <- foldM (fun b k =>
         o <- m_get m k ;;
         match o with Some v => mb_put b k v | None => Ok b end) (mkMB emptyTree) keys ;;
  Ok (fst (mb_finish b)).

(** map.go:154-162 [Where]. *)
Definition m_where (m : gomap) (pred : X -> V -> bool) : res gomap :=
  l <- m_entries m ;;
  b <- foldM (fun b kv => if pred (fst kv) (snd kv) then mb_put b (fst kv) (snd kv) else Ok b)
         (mkMB emptyTree) l ;;
  Ok (fst (mb_finish b)).

(** map.go:194-200 [Merge] (183-189 [EqKeyArgs]). *)
Definition m_merge (m n : gomap) (resolve : X -> V -> V -> V) : res gomap :=
  let f a b := newMapEntry (e_key a) (resolve (e_key a) (e_val a) (e_val b)) in
  rmap mkMap (t_combine (mkCombineArgs (newGauge (m_count m)) veq f) (m_tree m) (m_tree n)).

(** map.go:204-212 [Update]. *)
Definition m_update (m n : gomap) : res gomap :=
  let '(m, n, f) := if m_count n <? m_count m then (n, m, useLHS) else (m, n, useRHS) in
  rmap mkMap (t_combine (mkCombineArgs (newGauge (m_count m)) veq f) (m_tree m) (m_tree n)).

(** map.go:215-221 [Hash] on a 64-bit platform. *)
Definition m_hash {KV : Key V} (m : gomap) (seed : N) : res N :=
  l <- m_entries m ;;
  Ok (fold_left (fun h kv => N.lxor h (vhash (snd kv) (vhash (fst kv) seed))) l
        (wrap 64 (env_uintptr 3167960924819262823%N seed))).

(** map.go:225-232 [Equal]. *)
Definition m_equal {KV : Key V} (m n : gomap) : res bool :=
  t_equal (newGauge (m_count m)) mapEntryEqual (m_tree m) (m_tree n).
(** map.go:235-238 [Same]: [a] is [Some n] if its dynamic type is [Map[K, V]]. *)
Definition m_same {KV : Key V} (m : gomap) (a : option gomap) : res bool :=
  match a with Some n => m_equal m n | None => Ok false end.

(** Assignment [g[k] = v] to a Go map, here a list of entries; [geq] is Go's [==] on keys. *)
Fixpoint go_put (geq : X -> X -> bool) (g : list (X * V)) (k : X) (v : V) : list (X * V) :=
  match g with
  | [] => [(k, v)]
  | (k', v') :: g' => if geq k' k then (k', v) :: g' else (k', v') :: go_put geq g' k v
  end.
(** map.go:306-313 [MapToGoMap]. *)
Definition m_toGoMap (geq : X -> X -> bool) (m : gomap) : res (list (X * V)) :=
  l <- m_entries m ;;
  Ok (fold_left (fun g kv => go_put geq g (fst kv) (snd kv)) l []).

(** map_extra.go:21-28 [marshalJSONArray]: the slice of pairs handed to json.Marshal. *)
Definition m_marshalArray (m : gomap) : res (list (X * V)) := m_entries m.
(** map_extra.go:6-16 [MarshalJSON] for string keys: the Go map handed to json.Marshal; [geq] is
    [==] on strings. *)
Definition m_marshalObject (geq : X -> X -> bool) (m : gomap) : res (list (X * V)) :=
  m_toGoMap geq m.

End MapApi.

(** map.go:166-173 [MapMap]. *)
Definition m_map {E : Env} {X V U : Type} {KX : Key X} {ZV : Zero V} {ZU : Zero U}
    (m : gomap X V) (f : X -> V -> U) : res (gomap X U) :=
  l <- m_entries m ;;
  b <- foldM (fun b kv => mb_put b (fst kv) (f (fst kv) (snd kv))) (mkMB emptyTree) l ;;
  Ok (fst (mb_finish b)).

(** Maps as elements of sets, keys and values: [value.Equal] calls [Map.Equal] and [hash.Any] calls
    [Map.Hash]. Both never panic on maps obtained from the API (theorems C26 and C27), so the other
    branches are never taken. *)
#[global] Instance mapKey {E : Env} {X V : Type} {KX : Key X} {KV : Key V} : Key (gomap X V) := {
  veq := fun m n => match m_equal m n with Ok b => b | _ => false end;
  vhash := fun m seed => match m_hash m seed with Ok h => h | _ => 0%N end;
}.

(** ** SetGroupBy *)

(** A [*SetBuilder[T]] is an index into the list of all builders allocated so far (the store);
    the nil pointer, never dereferenced, is written 0. *)
#[local] Instance zeroPtr : Zero nat := {| zero := O |}.
#[global] Instance zeroSet {T} : Zero (set T) := {| zero := mkSet (mkTree None 0) |}.

Section GroupBy.
Context {E : Env} {T X : Type} {K : Key T} {KX : Key X}.

(** [b.Add(v)] through a pointer. *)
Definition store_add (store : list (setBuilder T)) (p : nat) (v : T) : res (list (setBuilder T)) :=
  match nth_error store p with
  | None => Panic
  | Some b => b' <- sb_add b v ;; Ok (set_nth store p b')
  end.
(** [p.Finish()]: the set; the builder is emptied. *)
Definition store_finish (store : list (setBuilder T)) (p : nat) : res (set T * list (setBuilder T)) :=
  match nth_error store p with
  | None => Panic
  | Some b => let '(s, b') := sb_finish b in Ok (s, set_nth store p b')
  end.

(** set.go:339-350: one round of the first loop. *)
Definition groupBy_step (key : T -> X) (st : mapBuilder X nat * list (setBuilder T)) (v : T)
  : res (mapBuilder X nat * list (setBuilder T)) :=
  let '(builders, store) := st in
  let k := key v in
  o <- mb_get builders k ;;
  '(p, builders', store') <-
    match o with
    | Some p => Ok (p, builders, store)
    | None =>
        let p := length store in
        b <- mb_put builders k p ;; Ok (p, b, store ++ [mkSB emptyTree])
    end ;;
  store'' <- store_add store' p v ;;
  Ok (builders', store'').

(** set.go:353-355: one round of the second loop. *)
Definition groupBy_collect (st : mapBuilder X (set T) * list (setBuilder T)) (kp : X * nat)
  : res (mapBuilder X (set T) * list (setBuilder T)) :=
  let '(result, store) := st in
  '(s, store') <- store_finish store (snd kp) ;;
  r <- mb_put result (fst kp) s ;;
  Ok (r, store').

(** set.go:337-357 [SetGroupBy]. *)
Definition s_groupBy (s : set T) (key : T -> X) : res (gomap X (set T)) :=
  vs <- s_elements s ;;
  '(builders, store) <- foldM (groupBy_step key) (mkMB emptyTree, []) vs ;;
  l <- m_entries (fst (mb_finish builders)) ;;
  '(result, _) <- foldM groupBy_collect (mkMB emptyTree, store) l ;;
  Ok (fst (mb_finish result)).
End GroupBy.
