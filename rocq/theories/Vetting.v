(** * Vetting: the checks that internal/pkg/vetctl switches on around the operations on trees, and the
    copies of builders they take.

    vetctl.Vetting is false in the sources (vetctl.go), so that Tree.v models the operations without
    the checks; this file models them with [vetting = true] and [vetReruns = false]. With vetReruns a
    failing check repeats the operation forever instead of panicking, which is not modelled. *)
From Verif Require Import Base Bits Env Node Iter Tree.
Local Open Scope Z_scope.

Section Vetting.
Context {E : Env} {T : Type} {K : Key T}.
Notation node := (node T).

(** leaf1.go:177-180, leaf2.go:248-251, twig.go:320-322, branch.go:433-440 [clone]: pointers are values
    here, so a copy of a leaf or of a twig is the leaf or the twig. *)
Fixpoint clone (fuel : nat) (n : node) : res node :=
  match fuel with
  | O => Fuel
  | S k =>
      match n with
      | Leaf1 a => Ok (Leaf1 a)
      | Leaf2 a b => Ok (Leaf2 a b)
      | Twig l => Ok (Twig l)
      | Branch mask data =>
          data' <- foldM (fun ret i =>
              match child ret i with
              | Some c => c' <- clone k c ;; Ok (set_nth ret i (Some c'))
              | None => Panic                                         (* nil receiver *)
              end) data (mask_indices mask) ;;
          Ok (Branch mask data')
      end
  end.

(** tree.go:211-213 [clone]. *)
Definition t_clone (t : tree T) : res (tree T) :=
  match t_root t with
  | Some n => n' <- clone treeFuel n ;; Ok (mkTree (Some n') (t_count t))
  | None => Panic                                                     (* nil receiver *)
  end.

(** builder.go:101-103 [clone]. *)
Definition b_clone (b : tree T) : res (tree T) := t_clone b.

(** vet.go:24-44 [check]: a failing check panics. *)
Definition vetCheck (ts : list (tree T)) : res unit := foldM (fun _ t => t_vet t) tt ts.

(** vet.go:16-55 [vet] around an operation [op] on the trees [ins]: they are checked before and, by the
    deferred call, after it, when they are [outs]. A panic of [op] remains a panic. The result of [op]
    is not checked (vet.go:47-50). *)
Definition vetted {A} (ins : list (tree T)) (op : res A) (outs : A -> list (tree T)) : res A :=
  _ <- vetCheck ins ;;
  r <- op ;;
  _ <- vetCheck (outs r) ;;
  Ok r.

(** tree.go:48-60 [Combine]. *)
Definition t_combineV (args : CombineArgs T) (t u : tree T) : res (tree T) :=
  vetted [t; u] (t_combine args t u) (fun _ => [t; u]).

(** tree.go:62-71 [Difference]. *)
Definition t_differenceV (g : gauge) (t u : tree T) : res (tree T) :=
  vetted [t; u] (t_difference g t u) (fun _ => [t; u]).

(** tree.go:92-104 [Intersection]: the variables checked are swapped by line 100. *)
Definition t_intersectionV (g : gauge) (t u : tree T) : res (tree T) :=
  vetted [t; u] (t_intersection g t u)
    (fun _ => match t_root t, t_root u with
              | Some _, Some _ => if t_count u <? t_count t then [u; t] else [t; u]
              | _, _ => [t; u]
              end).

(** tree.go:177-185 [Where]. *)
Definition t_whereV (g : gauge) (pred : T -> bool) (t : tree T) : res (tree T) :=
  vetted [t] (t_where g pred t) (fun _ => [t]).

(** tree.go:187-197 [With]. *)
Definition t_withV (t : tree T) (v : T) : res (tree T) := vetted [t] (t_with t v) (fun _ => [t]).

(** tree.go:199-209 [Without]. *)
Definition t_withoutV (t : tree T) (v : T) : res (tree T) := vetted [t] (t_without t v) (fun _ => [t]).

(** builder.go:34-77: [add], [Add] and [Remove] on a builder that holds something take a copy for the
    reruns, and check the tree of the builder before and after. *)
Definition b_vetted (b : tree T) (op : res (tree T)) : res (tree T) :=
  match t_root b with
  | None => op
  | Some _ =>
      _ <- b_clone b ;;
      vetted [b] op (fun b' => [b'])
  end.

(** builder.go:34-48 [add]. *)
Definition b_addArgsV (args : CombineArgs T) (b : tree T) (v : T) : res (tree T) :=
  b_vetted b (b_addArgs args b v).

(** builder.go:50-64 [Add]. *)
Definition b_addV (b : tree T) (v : T) : res (tree T) := b_vetted b (b_add b v).

(** builder.go:66-77 [Remove]. *)
Definition b_removeV (b : tree T) (v : T) : res (tree T) := b_vetted b (b_remove b v).

End Vetting.

(** tree.go:143-155 [Map]: the builder is checked as well. *)
Definition t_mapV {E : Env} {T U : Type} {KT : Key T} {KU : Key U}
    (f : T -> U) (t : tree T) : res (tree U) :=
  vetted [t]
    (match t_root t with
     | None => Ok emptyTree
     | Some _ =>
         vs <- t_range t ;;
         b <- foldM (fun b v => b_addV b (f v)) emptyTree vs ;;
         Ok (fst (b_finish b))
     end)
    (fun _ => [t]).
