(** * NodeMap: the Map method of the nodes, which no other code calls. *)
From Verif Require Import Base Bits Env EnvFacts Node Tree SetApi.
Local Open Scope Z_scope.

Section NodeMap.
Context {E : Env} {T : Type} {K : Key T}.
Notation node := (node T).
Notation tree := (tree T).

(** branch.go:277-282: the images of the children (packer.go:24-26 [GetChild]) are combined one after the other, at depth 0. *)
Definition map_gather (args : CombineArgs T) (data : list (option node)) : res (option node * Z) :=
  match mask_indices (updateMask data) with
  | [] => Ok (None, 0)                                                    (* branch.go:272-274 *)
  | i :: is =>
      match child data i with
      | None => Panic
      | Some c =>
          '(acc, dups) <- foldM (fun (s : node * Z) j =>
            match child data j with
            | None => Panic
            | Some c' => '(r, d) <- combine treeFuel args (fst s) c' 0 ;; Ok (r, snd s + d)
            end) (c, 0) is ;;
          Ok (Some acc, dups)
      end
  end.

(** leaf1.go:141-143, leaf2.go:189-195, twig.go:249-256, branch.go:261-285 [Map]. The result is a node (or nil) and the number of
    elements below it. *)
Fixpoint n_map (fuel : nat) (args : CombineArgs T) (n : node) (depth : nat) (f : T -> T) : res (option node * Z) :=
  match fuel with
  | O => Fuel
  | S k =>
      match n with
      | Leaf1 a => Ok (Some (Leaf1 (f a)), 1)
      | Leaf2 a b =>
          if c_eq args (f a) (f b) then Ok (Some (Leaf1 (f a)), 1) else Ok (Some (Leaf2 (f a) (f b)), 2)
      | Twig l =>
          t <- foldM (fun b e => b_addArgs args b (f e)) emptyTree l ;;
          Ok (t_root t, t_count t)
      | Branch m data =>
          '(_, matches, p) <- parallel (c_gauge args) depth m
            (fun i (p : packer T) =>
               match child data i with
               | None => Ok (true, 0, p)
               | Some x =>
                   '(o, c) <- n_map k (c_sub i args) x (S depth) f ;;
                   Ok (true, c, (fst p, set_nth (snd p) i o))
               end) emptyPacker ;;
          '(o, dups) <- map_gather args (snd p) ;;
          Ok (o, match o with Some _ => matches - dups | None => matches end)
      end
  end.

(** The method called for the root of a set, as the other operations are: nil for the empty set. *)
Definition s_nodeMap (args : CombineArgs T) (s : set T) (f : T -> T) : res (set T) :=
  match t_root (s_tree s) with
  | None => Ok s
  | Some n => '(o, c) <- n_map treeFuel args n 0 f ;; Ok (mkSet (mkTree o c))
  end.

End NodeMap.
