(** * Rel: pkg/rel/relation.go.

    Go's [string] attributes are an arbitrary key type [X] and Go's [any] values an arbitrary type [V]
    into which relations embed ([RelVal]); both only need a lawful [Key]. The log.Print calls of [Nest]
    are left out. *)
From Verif Require Import Base Bits Env Node Iter Tree SetApi MapApi.

(** The zero value [Map[K, V]{}]. *)
#[global] Instance zeroMap {X V} : Zero (gomap X V) := {| zero := mkMap emptyTree |}.

(** ** Generic functions with callbacks that may panic *)

(** set.go:217-219 [SetMap] and tree.go:143-155 [Map], the callback [f] may panic. (For an empty set the
    loop does nothing, as the early return of the code.) *)
Definition s_mapM {E : Env} {T U : Type} {KU : Key U} (s : set T) (f : T -> res U) : res (set U) :=
  vs <- s_elements s ;;
  b <- foldM (fun b v => u <- f v ;; sb_add b u) (mkSB emptyTree) vs ;;
  Ok (fst (sb_finish b)).

(** map.go:166-173 [MapMap], the callback [f] may panic. *)
Definition m_mapM {E : Env} {X V U : Type} {KX : Key X} {ZV : Zero V} {ZU : Zero U}
    (m : gomap X V) (f : X -> V -> res U) : res (gomap X U) :=
  l <- m_entries m ;;
  b <- foldM (fun b kv => u <- f (fst kv) (snd kv) ;; mb_put b (fst kv) u) (mkMB emptyTree) l ;;
  Ok (fst (mb_finish b)).

(** set.go:337-357 [SetGroupBy], the callback [key] may panic. *)
Definition s_groupByM {E : Env} {T X : Type} {K : Key T} {KX : Key X} (s : set T) (key : T -> res X)
  : res (gomap X (set T)) :=
  vs <- s_elements s ;;
  '(builders, store) <- foldM (fun st v => k <- key v ;; groupBy_step (fun _ => k) st v) (mkMB emptyTree, []) vs ;;
  l <- m_entries (fst (mb_finish builders)) ;;
  '(result, _) <- foldM groupBy_collect (mkMB emptyTree, store) l ;;
  Ok (fst (mb_finish result)).

Section Rel.
Context {E : Env} {X V : Type} {KX : Key X} {KV : Key V} {ZV : Zero V}.

(** relation.go:9-13 [Tuple], [Relation], [RelationBuilder]. *)
Notation tuple := (gomap X V).
Notation relation := (set (gomap X V)).
Notation relationBuilder := (setBuilder (gomap X V)).

(** relation.go:15-17 [NewTuple]. *)
Definition r_newTuple (kvs : list (keyValue X V)) : res tuple := m_new kvs.

(** relation.go:19 [trueSet]. *)
Definition r_trueSet : res relation := t <- r_newTuple [] ;; s_new [t].

(** relation.go:28-31: the tuple of one row ([header] and [row] have the same length). *)
Definition r_row (header : list X) (row : list V) : res tuple :=
  t <- r_newTuple [] ;;
  foldM (fun t hv => m_with t (fst hv) (snd hv)) t (List.combine header row).

(** relation.go:22-35 [New]. *)
Definition r_new (header : list X) (tuples : list (list V)) : res relation :=
  foldM (fun r row =>
    if Nat.eqb (length row) (length header) then t <- r_row header row ;; s_with r t else Panic)
    s_empty tuples.

(** relation.go:38-42 [Project]. *)
Definition r_project (s : relation) (attrs : list X) : res relation :=
  s_mapM s (fun t => m_project t attrs).

(** relation.go:105-113 [buildCartesianProduct]: the builder afterwards. *)
Fixpoint r_build (b : relationBuilder) (t : tuple) (relations : list relation) : res relationBuilder :=
  match relations with
  | r :: rs =>
      l <- s_elements r ;;
      foldM (fun b v => t' <- m_update t v ;; r_build b t' rs) b l
  | [] => sb_add b t
  end.

(** relation.go:99-103 [CartesianProduct]. *)
Definition r_cartesian (relations : list relation) : res relation :=
  b <- r_build (mkSB emptyTree) m_empty relations ;;
  Ok (fst (sb_finish b)).

(** relation.go:60-97 [join]. *)
Definition r_join2 (s t : relation) : res relation :=
  if (s_isEmpty s || s_isEmpty t)%bool then Ok s else
  ts <- r_trueSet ;;
  st <- s_equal s ts ;;
  if (st : bool) then Ok t else
  tt <- s_equal t ts ;;
  if (tt : bool) then Ok s else
  sa <- s_any s ;; sAttrs <- m_keys sa ;;
  ta <- s_any t ;; tAttrs <- m_keys ta ;;
  common <- s_intersection sAttrs tAttrs ;;
  commonAttrs <- s_elements common ;;
  match commonAttrs with
  | [] => r_cartesian [s; t]
  | _ =>
      sGroup <- s_groupByM s (fun t => m_project t commonAttrs) ;;
      tGroup <- s_groupByM t (fun t => m_project t commonAttrs) ;;
      sKeys <- m_keys sGroup ;; tKeys <- m_keys tGroup ;;
      commonKeys <- s_intersection sKeys tKeys ;;
      l <- s_elements commonKeys ;;
      rb <- foldM (fun rb key =>
        a <- m_get sGroup key ;;
        match a with
        | None => Panic
        | Some a =>
            b <- m_get tGroup key ;;
            match b with
            | None => Panic
            | Some b => r_build rb m_empty [a; b]
            end
        end) (mkSB emptyTree) l ;;
      Ok (fst (sb_finish rb))
  end.

(** relation.go:52-58 [Join]: [relations[0]] panics if there is no relation. *)
Definition r_join (relations : list relation) : res relation :=
  match relations with
  | [] => Panic
  | s :: ts => foldM r_join2 s ts
  end.

(** How relations are stored in an [any]: conversion to the interface type, and the type assertion
    [val.(Relation)] ([None]: the value has another dynamic type). *)
Class RelVal := { toAny : relation -> V; fromAny : V -> option relation }.
Context {RV : RelVal}.

(** relation.go:142-189 [Nest]. *)
Definition r_nest (s : relation) (attrAttrs : gomap X (set X)) : res relation :=
  vals <- m_values attrAttrs ;;
  sets <- s_elements vals ;;
  inter <- s_intersectionN sets ;;
  keyAttrs <- s_elements inter ;;
  grouped <- s_groupByM s (fun el => foldM m_without el keyAttrs) ;;
  mapped <- m_mapM grouped (fun key group =>
    a <- m_mapM attrAttrs (fun _ attrs =>
           l <- s_elements attrs ;; p <- r_project group l ;; Ok (toAny p)) ;;
    m_update a key) ;;
  m_values mapped.

(** relation.go:193-208 [Unnest]. *)
Definition r_unnest (s : relation) (attr : X) : res relation :=
  ts <- s_elements s ;;
  b <- foldM (fun b t =>
    key <- m_without t attr ;;
    p <- m_project t [attr] ;;
    nested <- m_mapM p (fun _ val => match fromAny val with Some r => Ok r | None => Panic end) ;;
    nestedValues <- m_values nested ;;
    ks <- s_new [key] ;;
    all <- s_with nestedValues ks ;;
    l <- s_elements all ;;
    joined <- r_join l ;;
    js <- s_elements joined ;;
    sb_addAll b js) (mkSB emptyTree) ts ;;
  Ok (fst (sb_finish b)).

End Rel.

Arguments RelVal : clear implicits.
