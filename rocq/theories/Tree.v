(** * Tree: internal/pkg/tree/tree.go and builder.go. *)
From Verif Require Import Base Bits Env Node Iter.
Local Open Scope Z_scope.

Section Tree.
Context {E : Env} {T : Type} {K : Key T}.
Notation node := (node T).

(** Recursion fuel given to every node operation started at the root. *)
Definition treeFuel : nat := 2 * maxTreeDepth + 4.

(** tree.go:17-20. *)
Record tree := mkTree { t_root : option node; t_count : Z }.

Definition emptyTree : tree := mkTree None 0.

(** tree.go:30-32 [Gauge] (also set.go:49-51). *)
Definition t_gauge (t : tree) : gauge := newGauge (t_count t).

(** nodeArgs.go:20-26,60-63,71-79: arguments of [Combine] with key equality [value.Equal]. *)
Definition combineArgs (g : gauge) (f : T -> T -> T) : CombineArgs T := mkCombineArgs g veq f.

(** tree.go:48-60 [Combine]. *)
Definition t_combine (args : CombineArgs T) (t u : tree) : res tree :=
  match t_root t, t_root u with
  | None, _ => Ok u
  | _, None => Ok t
  | Some n, Some n2 =>
      '(r, m) <- combine treeFuel args n n2 0 ;;
      Ok (mkTree (Some r) (t_count t + t_count u - m))
  end.

(** tree.go:62-71 [Difference]. *)
Definition t_difference (g : gauge) (t u : tree) : res tree :=
  match t_root t, t_root u with
  | Some n, Some n2 =>
      '(o, m) <- difference treeFuel g n n2 0 ;;
      Ok (mkTree o (t_count t - m))
  | _, _ => Ok t
  end.

(** tree.go:73-82 [Equal]: a nil receiver or argument is only reached with unequal counts,
    or with both counts 0. *)
Definition t_equal (g : gauge) (eq : T -> T -> bool) (t u : tree) : res bool :=
  if negb (t_count t =? t_count u) then Ok false
  else if (t_count t =? 0) && (t_count u =? 0) then Ok true
  else
    match t_root t, t_root u with
    | Some n, Some n2 => equal treeFuel g eq n n2 0
    | Some n, None => Ok false                (* the type assertion fails on a nil node *)
    | None, _ => Panic                        (* nil receiver *)
    end.

(** tree.go:84-90 [Get]. *)
Definition t_get (t : tree) (v : T) : res (option T) :=
  match t_root t with
  | None => Ok None
  | Some n => get treeFuel n v (newHasher v 0)
  end.

(** tree.go:92-104 [Intersection]. *)
Definition t_intersection (g : gauge) (t u : tree) : res tree :=
  match t_root t, t_root u with
  | Some n, Some n2 =>
      let '(n, n2) := if t_count u <? t_count t then (n2, n) else (n, n2) in
      '(o, m) <- intersection treeFuel g n n2 0 ;;
      Ok (mkTree o m)
  | _, _ => Ok emptyTree
  end.

(** tree.go:106-112 [Iterator]. *)
Definition t_iterator (t : tree) : iter T :=
  match t_root t with
  | None => IEmpty
  | Some n => iterator n
  end.

(** [for i := t.Iterator(); i.Next(); { ... i.Value() ... }]: the values seen, in order.
    (The number of elements is only used as recursion fuel.) *)
Definition t_range (t : tree) : res (list T) :=
  rmap fst (drain (S (length (elemso (t_root t)))) (S treeFuel) (t_iterator t)).

(** tree.go:133-141 [SubsetOf]. *)
Definition t_subsetOf (g : gauge) (t u : tree) : res bool :=
  match t_root t, t_root u with
  | None, _ => Ok true
  | _, None => Ok false
  | Some n, Some n2 => subsetOf treeFuel g n n2 0
  end.

(** tree.go:157-162 [Reduce]; [None] is the result [(zero, false)]. *)
Definition t_reduce (g : gauge) (r : list T -> T) (t : tree) : res (option T) :=
  match t_root t with
  | Some n => rmap Some (reduce treeFuel g r n 0)
  | None => Ok None
  end.

(** tree.go:164-175 [Vet]. *)
Definition t_vet (t : tree) : res unit :=
  match t_root t with
  | None => if t_count t =? 0 then Ok tt else Panic
  | Some n =>
      c <- vet treeFuel n ;;
      if c =? t_count t then Ok tt else Panic
  end.

(** tree.go:177-185 [Where]. *)
Definition t_where (g : gauge) (pred : T -> bool) (t : tree) : res tree :=
  match t_root t with
  | None => Ok t
  | Some n => '(o, m) <- where_ treeFuel g pred n 0 ;; Ok (mkTree o m)
  end.

(** tree.go:187-197 [With]. *)
Definition t_with (t : tree) (v : T) : res tree :=
  match t_root t with
  | None => Ok (mkTree (Some (Leaf1 v)) 1)
  | Some n =>
      '(r, m) <- withFast treeFuel n v 0 (newHasher v 0) ;;
      Ok (mkTree (Some r) (t_count t + 1 - m))
  end.

(** tree.go:199-209 [Without]. *)
Definition t_without (t : tree) (v : T) : res tree :=
  match t_root t with
  | None => Ok t
  | Some n =>
      '(o, m) <- without treeFuel n v 0 (newHasher v 0) ;;
      Ok (mkTree o (t_count t - m))
  end.

(** builder.go:22-28 [Builder] is a tree under construction. *)

(** builder.go:34-48 [add]. *)
Definition b_addArgs (args : CombineArgs T) (b : tree) (v : T) : res tree :=
  match t_root b with
  | None => Ok (mkTree (Some (Leaf1 v)) 1)
  | Some n =>
      '(r, m) <- add treeFuel args n v 0 (newHasher v 0) ;;
      Ok (mkTree (Some r) (t_count b + (1 - m)))
  end.

(** builder.go:50-64 [Add]. *)
Definition b_add (b : tree) (v : T) : res tree :=
  match t_root b with
  | None => Ok (mkTree (Some (Leaf1 v)) 1)
  | Some n =>
      '(r, m) <- addFast treeFuel n v 0 (newHasher v 0) ;;
      Ok (mkTree (Some r) (t_count b + (1 - m)))
  end.

(** builder.go:66-77 [Remove]. *)
Definition b_remove (b : tree) (v : T) : res tree :=
  match t_root b with
  | None => Ok b
  | Some n =>
      '(o, m) <- remove_ treeFuel n v 0 (newHasher v 0) ;;
      Ok (mkTree o (t_count b - m))
  end.

(** builder.go:79-81 [Get]. *)
Definition b_get (b : tree) (v : T) : res (option T) := t_get b v.

(** builder.go:83-91 [Finish]: the tree built, and the builder left behind. *)
Definition b_finish (b : tree) : tree * tree := (b, emptyTree).

(** [for _, v := range vs { b.Add(v) }]. *)
Definition b_addAll (b : tree) (vs : list T) : res tree := foldM b_add b vs.

End Tree.

Arguments tree : clear implicits.

(** tree.go:143-155 [Map]. *)
Definition t_map {E : Env} {T U : Type} {KU : Key U}
    (f : T -> U) (t : tree T) : res (tree U) :=
  match t_root t with
  | None => Ok emptyTree
  | Some _ =>
      vs <- t_range t ;;
      b <- foldM (fun b v => b_add b (f v)) emptyTree vs ;;
      Ok (fst (b_finish b))
  end.
