(** * Node: the trie nodes of internal/pkg/tree and their operations.

    Pure model: a method that mutates its receiver returns the new value; pointers
    are values (HeapModel.v models the pointers). *)
From Verif Require Import Base Bits Env.
Local Open Scope Z_scope.

(** leaf1.go:12-14, leaf2.go:12-14, twig.go:12-14, branch.go:23-25 with
    packer.go:9-12 inlined ([data] is the array [fanout]node[T], [None] is nil). *)
Inductive node (T : Type) : Type :=
| Leaf1 (a : T)
| Leaf2 (a b : T)
| Twig (l : list T)
| Branch (mask : N) (data : list (option (node T))).
Arguments Leaf1 {T} _.
Arguments Leaf2 {T} _ _.
Arguments Twig {T} _.
Arguments Branch {T} _ _.

Section Node.
Context {E : Env} {T : Type} {K : Key T}.

Notation node := (node T).
(** packer.go:9-12. *)
Definition packer : Type := (N * list (option node))%type.

(** packer.go:7. *)
Definition maxLeafLen : nat := 2.

(** [p.data[i]]. *)
Definition child (data : list (option node)) (i : nat) : option node := nth i data None.
(** The zero array. *)
Definition emptyData : list (option node) := repeat None fanout.
Definition emptyPacker : packer := (0%N, emptyData).

(** packer.go:28-36 [SetChild]. *)
Definition setChild (p : packer) (i : nat) (n : option node) : packer :=
  match n with
  | None => (N.ldiff (fst p) (newMasker i), set_nth (snd p) i n)
  | Some _ => (N.lor (fst p) (newMasker i), set_nth (snd p) i n)
  end.
(** packer.go:38-41 [SetNonNilChild]. *)
Definition setNonNilChild (p : packer) (i : nat) (n : option node) : packer :=
  (N.lor (fst p) (newMasker i), set_nth (snd p) i n).
(** packer.go:43-47 [WithChild]. *)
Definition withChild (p : packer) (i : nat) (n : option node) : packer := setChild p i n.
(** packer.go:53-61 [updateMask]: the mask computed from the children. *)
Fixpoint updateMask_from (i : nat) (data : list (option node)) (mask : N) : N :=
  match data with
  | [] => mask
  | None :: data' => updateMask_from (S i) data' mask
  | Some _ :: data' => updateMask_from (S i) data' (N.lor mask (newMasker i))
  end.
Definition updateMask (data : list (option node)) : N := updateMask_from 0 data 0.
(** packer.go:63-65 [updateMaskBit]. *)
Definition updateMaskBit (p : packer) (m : N) : packer := (N.lor (fst p) m, snd p).

(** branch.go:27-33 [newBranch]. *)
Definition newBranch (p : packer) : node := Branch (fst p) (snd p).

(** leaf1.go:16-25 [newLeaf]. *)
Definition newLeaf (data : list T) : res node :=
  match data with
  | [a] => Ok (Leaf1 a)
  | [a; b] => Ok (Leaf2 a b)
  | _ => Panic
  end.

(** leaf1.go:83-88, leaf2.go:108-113, twig.go:148-153, branch.go:75-84 [AppendTo]:
    [None] is the nil slice returned on overflow of the capacity [cap]. *)
Fixpoint appendTo (cap : nat) (n : node) (dest : list T) : option (list T) :=
  match n with
  | Leaf1 a => if (cap <? length dest + 1)%nat then None else Some (dest ++ [a])
  | Leaf2 a b => if (cap <? length dest + 2)%nat then None else Some (dest ++ [a; b])
  | Twig l => if (cap <? length dest + length l)%nat then None else Some (dest ++ l)
  | Branch _ data =>
      (fix go (ds : list (option node)) (dest : list T) : option (list T) :=
         match ds with
         | [] => Some dest
         | None :: ds' => go ds' dest
         | Some c :: ds' =>
             match appendTo cap c dest with
             | None => None
             | Some dest' => go ds' dest'
             end
         end) data dest
  end.

(** Replace the first element satisfying [p] by [g] of it: the body of the loops
    [for i, e := range l.data { if eq(e, v) { l.data[i] = f(e, v); ... } }]. *)
Fixpoint replaceFirst (p : T -> bool) (g : T -> T) (l : list T) : option (list T) :=
  match l with
  | [] => None
  | e :: l' =>
      if p e then Some (g e :: l')
      else match replaceFirst p g l' with
           | None => None
           | Some l'' => Some (e :: l'')
           end
  end.

(** branch.go:35-45 [newBranchFrom], given the [AddFast] it calls. *)
Definition newBranchFrom_with
    (addFast : node -> T -> nat -> N -> res (node * Z)) (depth : nat) (data : list T) : res node :=
  if (maxTreeDepth <=? depth)%nat then Ok (Twig data)
  else
    foldM (fun b e => '(b', _) <- addFast b e depth (newHasher e depth) ;; Ok b')
          (newBranch emptyPacker) data.

(** AddFast: leaf1.go:55-61, leaf2.go:51-62, twig.go:65-87, branch.go:61-73.
    Simplification (twig.go:73): the pure model has no spare capacity, so
    [len(l.data) < cap(l.data) || depth >= maxTreeDepth] is [depth >= maxTreeDepth];
    twigs only occur at depth maxTreeDepth (theorem [wf_twig_depth] in SpecBits.v). *)
Fixpoint addFast (fuel : nat) (n : node) (v : T) (depth : nat) (h : N) : res (node * Z) :=
  match fuel with
  | O => Fuel
  | S k =>
      match n with
      | Leaf1 a =>
          if veq a v then Ok (Leaf1 v, 1) else Ok (Leaf2 a v, 0)
      | Leaf2 a b =>
          if veq a v then Ok (Leaf2 v b, 1)
          else if veq b v then Ok (Leaf2 a v, 1)
          else n' <- newBranchFrom_with (addFast k) depth [a; b; v] ;; Ok (n', 0)
      | Twig l =>
          match replaceFirst (fun e => veq e v) (fun _ => v) l with
          | Some l' => Ok (Twig l', 1)
          | None =>
              if (maxTreeDepth <=? depth)%nat then Ok (Twig (l ++ [v]), 0)
              else
                '(b, m) <- foldM (fun bm e =>
                     '(b', m) <- addFast k (fst bm) e depth (newHasher e depth) ;;
                     Ok (b', snd bm + m)) (newBranch emptyPacker, 0) l ;;
                '(b', m') <- addFast k b v depth h ;;
                Ok (b', m + m')
          end
      | Branch mask data =>
          let i := h_hash h in
          match child data i with
          | None => Ok (newBranch (setNonNilChild (mask, data) i (Some (Leaf1 v))), 0)
          | Some c =>
              '(n', m) <- addFast k c v (S depth) (h_next h) ;;
              Ok (newBranch (setNonNilChild (mask, data) i (Some n')), m)
          end
      end
  end.

(** branch.go:35-45 [newBranchFrom]. *)
Definition newBranchFrom (fuel : nat) (depth : nat) (data : list T) : res node :=
  newBranchFrom_with (addFast fuel) depth data.

(** ** Args: nodeArgs.go *)

(** nodeArgs.go:28-34 [CombineArgs], with the fields of [EqArgs] (nodeArgs.go:52-58)
    that are used ([hash] is never read). *)
Record CombineArgs := mkCombineArgs {
  c_gauge : gauge;
  c_eq : T -> T -> bool;
  c_f : T -> T -> T;
}.

(** nodeArgs.go:40-50 [Flip]. *)
Definition flip_args (a : CombineArgs) : CombineArgs :=
  mkCombineArgs (c_gauge a) (c_eq a) (fun x y => c_f a y x).

Definition c_sub (i : nat) (a : CombineArgs) : CombineArgs :=
  mkCombineArgs (g_sub i (c_gauge a)) (c_eq a) (c_f a).

(** Add: leaf1.go:47-53, leaf2.go:38-49, twig.go:41-63, branch.go:47-59. *)
Fixpoint add (fuel : nat) (args : CombineArgs) (n : node) (v : T) (depth : nat) (h : N) : res (node * Z) :=
  match fuel with
  | O => Fuel
  | S k =>
      match n with
      | Leaf1 a =>
          if c_eq args a v then Ok (Leaf1 (c_f args a v), 1) else Ok (Leaf2 a v, 0)
      | Leaf2 a b =>
          if c_eq args a v then Ok (Leaf2 (c_f args a v) b, 1)
          else if c_eq args b v then Ok (Leaf2 a (c_f args b v), 1)
          else n' <- newBranchFrom k depth [a; b; v] ;; Ok (n', 0)
      | Twig l =>
          match replaceFirst (fun e => c_eq args e v) (fun e => c_f args e v) l with
          | Some l' => Ok (Twig l', 1)
          | None =>
              if (maxTreeDepth <=? depth)%nat then Ok (Twig (l ++ [v]), 0)
              else
                '(b, m) <- foldM (fun bm e =>
                     '(b', m) <- add k args (fst bm) e depth (newHasher e depth) ;;
                     Ok (b', snd bm + m)) (newBranch emptyPacker, 0) l ;;
                '(b', m') <- add k args b v depth h ;;
                Ok (b', m + m')
          end
      | Branch mask data =>
          let i := h_hash h in
          match child data i with
          | None => Ok (newBranch (setNonNilChild (mask, data) i (Some (Leaf1 v))), 0)
          | Some c =>
              '(n', m) <- add k args c v (S depth) (h_next h) ;;
              Ok (newBranch (setNonNilChild (mask, data) i (Some n')), m)
          end
      end
  end.

(** Canonical: twig.go:89-103. *)
Definition canonicalTwig (fuel : nat) (depth : nat) (l : list T) : res (option node) :=
  match l with
  | [] => Ok None
  | [a] => Ok (Some (Leaf1 a))
  | [a; b] => Ok (Some (Leaf2 a b))
  | _ =>
      if ((length l <=? maxLeafLen) || (64 <=? depth * fb))%nat then Ok (Some (Twig l))
      else rmap Some (newBranchFrom fuel depth l)
  end.

(** Canonical: leaf1.go:63-65, leaf2.go:64-66, twig.go:89-103, branch.go:86-92. *)
Definition canonical (fuel : nat) (depth : nat) (n : node) : res (option node) :=
  match n with
  | Leaf1 _ | Leaf2 _ _ => Ok (Some n)
  | Twig l => canonicalTwig fuel depth l
  | Branch _ _ =>
      match appendTo maxLeafLen n [] with
      | Some data => canonicalTwig fuel 0 data
      | None => Ok (Some n)
      end
  end.

(** Get: leaf1.go:106-111, leaf2.go:140-147, twig.go:191-198, branch.go:173-179.
    [None] is the nil pointer. *)
Fixpoint get (fuel : nat) (n : node) (v : T) (h : N) : res (option T) :=
  match fuel with
  | O => Fuel
  | S k =>
      match n with
      | Leaf1 a => Ok (if veq a v then Some a else None)
      | Leaf2 a b => Ok (if veq a v then Some a else if veq b v then Some b else None)
      | Twig l => Ok (find (fun e => veq e v) l)
      | Branch _ data =>
          match child data (h_hash h) with
          | Some x => get k x v (h_next h)
          | None => Ok None
          end
      end
  end.

Definition isSome {A} (o : option A) : bool := match o with Some _ => true | None => false end.

(** With: leaf1.go:156-161, leaf2.go:216-225, twig.go:282-292, branch.go:330-345.
    Simplification (branch.go:339): [x2 != x] compares pointers; [With] on a child never
    returns the child itself, so the branch is always rebuilt. *)
Fixpoint with_ (fuel : nat) (args : CombineArgs) (n : node) (v : T) (depth : nat) (h : N) : res (node * Z) :=
  match fuel with
  | O => Fuel
  | S k =>
      match n with
      | Leaf1 a =>
          if c_eq args a v then Ok (Leaf1 (c_f args a v), 1) else Ok (Leaf2 a v, 0)
      | Leaf2 a b =>
          if c_eq args a v then Ok (Leaf2 (c_f args a v) b, 1)
          else if c_eq args b v then Ok (Leaf2 a (c_f args b v), 1)
          else n' <- newBranchFrom k depth [a; b; v] ;; Ok (n', 0)
      | Twig l =>
          match replaceFirst (fun e => c_eq args e v) (fun e => c_f args e v) l with
          | Some l' => Ok (Twig l', 1)
          | None =>
              o <- canonicalTwig k depth (l ++ [v]) ;;
              match o with Some n' => Ok (n', 0) | None => Panic end
          end
      | Branch mask data =>
          let i := h_hash h in
          let g := h_next h in
          match child data i with
          | Some x =>
              '(x2, m) <- with_ k args x v (S depth) g ;;
              Ok (newBranch (withChild (mask, data) i (Some x2)), m)
          | None => Ok (newBranch (withChild (mask, data) i (Some (Leaf1 v))), 0)
          end
      end
  end.

(** WithFast: leaf1.go:163-168, leaf2.go:227-236, twig.go:294-304, branch.go:347-358. *)
Fixpoint withFast (fuel : nat) (n : node) (v : T) (depth : nat) (h : N) : res (node * Z) :=
  match fuel with
  | O => Fuel
  | S k =>
      match n with
      | Leaf1 a =>
          if veq a v then Ok (Leaf1 v, 1) else Ok (Leaf2 a v, 0)
      | Leaf2 a b =>
          if veq a v then Ok (Leaf2 v b, 1)
          else if veq b v then Ok (Leaf2 a v, 1)
          else n' <- newBranchFrom k depth [a; b; v] ;; Ok (n', 0)
      | Twig l =>
          match replaceFirst (fun e => veq e v) (fun _ => v) l with
          | Some l' => Ok (Twig l', 1)
          | None =>
              o <- canonicalTwig k depth (l ++ [v]) ;;
              match o with Some n' => Ok (n', 0) | None => Panic end
          end
      | Branch mask data =>
          let i := h_hash h in
          let g := h_next h in
          match child data i with
          | Some x =>
              '(x2, m) <- withFast k x v (S depth) g ;;
              Ok (newBranch (withChild (mask, data) i (Some x2)), m)
          | None => Ok (newBranch (withChild (mask, data) i (Some (Leaf1 v))), 0)
          end
      end
  end.

(** Remove the first element satisfying [p], moving the last element into its place:
    twig.go:222-233 (in place) and twig.go:307-314 (on a copy). *)
Fixpoint findIndex (p : T -> bool) (l : list T) : option nat :=
  match l with
  | [] => None
  | e :: l' => if p e then Some O else option_map S (findIndex p l')
  end.
Definition swapRemove (l : list T) (i : nat) (d : T) : list T :=
  let last := (length l - 1)%nat in
  let l' := firstn last l in
  if (i =? last)%nat then l' else set_nth l' i (nth last l d).

(** Without: leaf1.go:170-175, leaf2.go:238-246, twig.go:306-318, branch.go:360-372.
    Simplification (branch.go:365): [x2 != x] compares pointers; a child returns itself
    exactly when it reports no match ([matches == 0]), which is what is tested here.
    [v] is only used as the default of an in-range [nth]. *)
Fixpoint without (fuel : nat) (n : node) (v : T) (depth : nat) (h : N) : res (option node * Z) :=
  match fuel with
  | O => Fuel
  | S k =>
      match n with
      | Leaf1 a => if veq a v then Ok (None, 1) else Ok (Some n, 0)
      | Leaf2 a b =>
          if veq a v then Ok (Some (Leaf1 b), 1)
          else if veq b v then Ok (Some (Leaf1 a), 1)
          else Ok (Some n, 0)
      | Twig l =>
          match findIndex (fun e => veq e v) l with
          | Some i => o <- canonicalTwig k depth (swapRemove l i v) ;; Ok (o, 1)
          | None => Ok (Some n, 0)
          end
      | Branch mask data =>
          let i := h_hash h in
          let g := h_next h in
          match child data i with
          | Some x =>
              '(x2, m) <- without k x v (S depth) g ;;
              if (m =? 0) then Ok (Some n, m)
              else
                let p := updateMaskBit (mask, data) (newMasker i) in
                o <- canonical k depth (newBranch (withChild p i x2)) ;;
                Ok (o, m)
          | None => Ok (Some n, 0)
          end
      end
  end.

(** Remove (builder): leaf1.go:129-135, leaf2.go:172-182, twig.go:220-237,
    branch.go:222-240. *)
Fixpoint remove_ (fuel : nat) (n : node) (v : T) (depth : nat) (h : N) : res (option node * Z) :=
  match fuel with
  | O => Fuel
  | S k =>
      match n with
      | Leaf1 a => if veq a v then Ok (None, 1) else Ok (Some n, 0)
      | Leaf2 a b =>
          if veq a v then Ok (Some (Leaf1 b), 1)
          else if veq b v then Ok (Some (Leaf1 a), 1)
          else Ok (Some n, 0)
      | Twig l =>
          match findIndex (fun e => veq e v) l with
          | Some i =>
              if (length l - 1 =? 0)%nat then Ok (None, 1)
              else o <- canonicalTwig k depth (swapRemove l i v) ;; Ok (o, 1)
          | None => Ok (Some n, 0)
          end
      | Branch mask data =>
          let i := h_hash h in
          match child data i with
          | Some c =>
              '(n', m) <- remove_ k c v (S depth) (h_next h) ;;
              let data' := set_nth data i n' in
              let keep := Ok (Some (Branch (updateMask data') data'), m) in
              match n' with
              | Some (Branch _ _) => keep
              | _ =>
                  match appendTo maxLeafLen (Branch mask data') [] with
                  | Some es => l <- newLeaf es ;; Ok (Some l, m)
                  | None => keep
                  end
              end
          | None => Ok (Some n, 0)
          end
      end
  end.

(** Combine of two leaf2 nodes: leaf2.go:73-91. [step] is one round of the loop of
    leaf2.go:75-90 (with n0, n1 swapped in the second round). *)
Definition combineLeaf2_step (fuel : nat) (args : CombineArgs) (depth : nat)
    (l0 l1 n0 n1 : T) : option (res (node * Z)) :=
  if c_eq args l0 n0 then
    let r0 := c_f args l0 n0 in
    if c_eq args l1 n1 then Some (Ok (Leaf2 r0 (c_f args l1 n1), 2))
    else Some (b <- newBranchFrom fuel depth [r0; l1; n1] ;; Ok (b, 1))
  else if c_eq args l1 n1 then
    Some (b <- newBranchFrom fuel depth [l0; n0; c_f args l1 n1] ;; Ok (b, 1))
  else None.

Definition combineLeaf2 (fuel : nat) (args : CombineArgs) (depth : nat)
    (l0 l1 n0 n1 : T) : res (node * Z) :=
  match combineLeaf2_step fuel args depth l0 l1 n0 n1 with
  | Some r => r
  | None =>
      match combineLeaf2_step fuel args depth l0 l1 n1 n0 with
      | Some r => r
      | None => b <- newBranchFrom fuel depth [l0; l1; n0; n1] ;; Ok (b, 0)
      end
  end.

(** Combine of two leaf1 nodes: leaf1.go:73-77. *)
Definition combineLeaf1 (args : CombineArgs) (a b : T) : node * Z :=
  if c_eq args a b then (Leaf1 (c_f args a b), 1) else (Leaf2 a b, 0).

(** Combine of a leaf2 with a leaf1: leaf2.go:92-102. *)
Definition combineLeaf21 (fuel : nat) (args : CombineArgs) (depth : nat)
    (l0 l1 nd : T) : res (node * Z) :=
  if c_eq args l0 nd then Ok (Leaf2 (c_f args l0 nd) l1, 1)
  else if c_eq args l1 nd then Ok (Leaf2 l0 (c_f args l1 nd), 1)
  else b <- newBranchFrom fuel depth [l0; l1; nd] ;; Ok (b, 0).

(** twig.go:131-139: the branch built here is dropped; only its matches are kept. *)
Definition combineTwig_dropped (fuel : nat) (args : CombineArgs) (depth : nat) (l rest : list T) : res Z :=
  rmap snd (foldM (fun bm e =>
      '(b', m) <- add fuel args (fst bm) e depth (newHasher e depth) ;;
      Ok (b', snd bm + m)) (newBranch emptyPacker, 0) (l ++ rest)).

(** twig.go:116-141: the scanning loop. *)
Fixpoint combineTwig_scan (fuel : nat) (args : CombineArgs) (depth : nat)
    (l ndata : list T) (matches : Z) : res (list T * Z) :=
  match ndata with
  | [] => Ok (l, matches)
  | e :: rest =>
      match replaceFirst (fun f => c_eq args f e) (fun f => c_f args f e) l with
      | Some l' => combineTwig_scan fuel args depth l' rest (matches + 1)
      | None =>
          if (length l <? maxLeafLen)%nat
          then combineTwig_scan fuel args depth (l ++ [e]) rest matches
          else
            m <- combineTwig_dropped fuel args depth l (e :: rest) ;;
            combineTwig_scan fuel args depth l rest (matches + m)
      end
  end.

(** Combine of two twigs: twig.go:105-146. *)
Definition combineTwig (fuel : nat) (args : CombineArgs) (depth : nat) (l ndata : list T) : res (node * Z) :=
  '(l', m) <- combineTwig_scan fuel args depth l ndata 0 ;;
  if (maxLeafLen <? length l')%nat then Panic
  else
    o <- canonicalTwig fuel depth l' ;;
    match o with Some n => Ok (n, m) | None => Panic end.

(** Combine: leaf1.go:67-81, leaf2.go:68-106, twig.go:105-146, branch.go:94-123. *)
Fixpoint combine (fuel : nat) (args : CombineArgs) (n n2 : node) (depth : nat) : res (node * Z) :=
  match fuel with
  | O => Fuel
  | S k =>
      match n, n2 with
      | Branch m1 d1, Branch m2 d2 =>
          '(_, matches, ret) <- parallel (c_gauge args) depth (N.lor m1 m2)
            (fun i (ret : packer) =>
               match child d1 i, child d2 i with
               | None, y => Ok (true, 0, setNonNilChild ret i y)
               | x, None => Ok (true, 0, setNonNilChild ret i x)
               | Some x, Some y =>
                   '(r, m) <- combine k (c_sub i args) x y (S depth) ;;
                   Ok (true, m, (fst ret, set_nth (snd ret) i (Some r)))
               end) emptyPacker ;;
          Ok (Branch (updateMask (snd ret)) (snd ret), matches)
      | Branch _ _, Leaf1 a => with_ k args n a depth (newHasher a depth)
      | Branch _ _, Leaf2 a b =>
          '(n', m1) <- with_ k args n a depth (newHasher a depth) ;;
          '(n'', m2) <- with_ k args n' b depth (newHasher b depth) ;;
          Ok (n'', m1 + m2)
      | Branch _ _, Twig _ => Panic                                   (* branch.go:120-121 *)
      | Leaf1 a, Branch _ _ => with_ k (flip_args args) n2 a depth (newHasher a depth)
      | Leaf1 a, Leaf2 b c => combineLeaf21 k (flip_args args) depth b c a
      | Leaf1 a, Leaf1 b => Ok (combineLeaf1 args a b)
      | Leaf1 _, Twig _ => Panic                                      (* leaf1.go:78-79 *)
      | Leaf2 a b, Branch _ _ =>
          '(n', m1) <- with_ k (flip_args args) n2 a depth (newHasher a depth) ;;
          '(n'', m2) <- with_ k (flip_args args) n' b depth (newHasher b depth) ;;
          Ok (n'', m1 + m2)
      | Leaf2 a b, Leaf2 c d => combineLeaf2 k args depth a b c d
      | Leaf2 a b, Leaf1 c => combineLeaf21 k args depth a b c
      | Leaf2 _ _, Twig _ => Panic                                    (* leaf2.go:103-104 *)
      | Twig l, Twig l2 => combineTwig k args depth l l2
      | Twig _, _ => Panic                                            (* twig.go:110-111 *)
      end
  end.

(** [n.Get(e, newHasher(e, depth)) != nil]. *)
Definition has_at (fuel : nat) (n : node) (e : T) (depth : nat) : res bool :=
  rmap isSome (get fuel n e (newHasher e depth)).

(** The filtering loops of twig.go:157-164 and twig.go:202-208. *)
Fixpoint filterGet (fuel : nat) (keep : bool) (l : list T) (n : node) (depth : nat) : res (list T * Z) :=
  match l with
  | [] => Ok ([], 0)
  | e :: l' =>
      b <- has_at fuel n e depth ;;
      '(r, m) <- filterGet fuel keep l' n depth ;;
      Ok (if Bool.eqb b keep then e :: r else r, if b then m + 1 else m)
  end.

(** Difference: leaf1.go:90-95, leaf2.go:115-128, twig.go:155-166, branch.go:125-153. *)
Fixpoint difference (fuel : nat) (g : gauge) (n n2 : node) (depth : nat) : res (option node * Z) :=
  match fuel with
  | O => Fuel
  | S k =>
      match n with
      | Leaf1 a =>
          b <- has_at k n2 a depth ;;
          if (b : bool) then Ok (None, 1) else Ok (Some n, 0)
      | Leaf2 x y =>
          a <- has_at k n2 x depth ;;
          b <- has_at k n2 y depth ;;
          match a, b with
          | true, true => Ok (None, 2)
          | true, false => Ok (Some (Leaf1 y), 1)
          | false, true => Ok (Some (Leaf1 x), 1)
          | false, false => Ok (Some n, 0)
          end
      | Twig l =>
          '(l', m) <- filterGet k false l n2 depth ;;
          o <- canonicalTwig k depth l' ;;
          Ok (o, m)
      | Branch m1 d1 =>
          match n2 with
          | Branch _ d2 =>
              '(_, matches, ret) <- parallel g depth m1
                (fun i (ret : packer) =>
                   match child d1 i, child d2 i with
                   | x, None => Ok (true, 0, (fst ret, set_nth (snd ret) i x))
                   | None, Some _ => Panic                            (* nil receiver *)
                   | Some x, Some y =>
                       '(r, m) <- difference k (g_sub i g) x y (S depth) ;;
                       Ok (true, m, (fst ret, set_nth (snd ret) i r))
                   end) emptyPacker ;;
              o <- canonical k depth (Branch (updateMask (snd ret)) (snd ret)) ;;
              Ok (o, matches)
          | Leaf1 a => without k n a depth (newHasher a depth)
          | Leaf2 a b =>
              '(o1, m1) <- without k n a depth (newHasher a depth) ;;
              match o1 with
              | None => Panic                                         (* nil receiver *)
              | Some n1 =>
                  '(o2, m2) <- without k n1 b depth (newHasher b depth) ;;
                  Ok (o2, m1 + m2)
              end
          | Twig _ => Panic                                           (* branch.go:150-151 *)
          end
      end
  end.

(** Intersection of a leaf with any node: leaf1.go:113-118, leaf2.go:149-162. *)
Definition intersectLeaf1 (fuel : nat) (a : T) (n2 : node) (depth : nat) : res (option node * Z) :=
  b <- has_at fuel n2 a depth ;;
  if (b : bool) then Ok (Some (Leaf1 a), 1) else Ok (None, 0).
Definition intersectLeaf2 (fuel : nat) (x y : T) (n2 : node) (depth : nat) : res (option node * Z) :=
  g0 <- has_at fuel n2 x depth ;;
  g1 <- has_at fuel n2 y depth ;;
  match g0, g1 with
  | true, true => Ok (Some (Leaf2 x y), 2)
  | true, false => Ok (Some (Leaf1 x), 1)
  | false, true => Ok (Some (Leaf1 y), 1)
  | false, false => Ok (None, 0)
  end.

(** Intersection: leaf1.go:113-118, leaf2.go:149-162, twig.go:200-210, branch.go:181-201. *)
Fixpoint intersection (fuel : nat) (g : gauge) (n n2 : node) (depth : nat) : res (option node * Z) :=
  match fuel with
  | O => Fuel
  | S k =>
      match n with
      | Leaf1 a => intersectLeaf1 k a n2 depth
      | Leaf2 x y => intersectLeaf2 k x y n2 depth
      | Twig l =>
          '(l', m) <- filterGet k true l n2 depth ;;
          o <- canonicalTwig k depth l' ;;
          Ok (o, m)
      | Branch m1 d1 =>
          match n2 with
          | Branch m2 d2 =>
              '(_, matches, ret) <- parallel g depth (N.land m1 m2)
                (fun i (ret : packer) =>
                   match child d1 i, child d2 i with
                   | Some x, Some y =>
                       '(r, m) <- intersection k (g_sub i g) x y (S depth) ;;
                       Ok (true, m, (fst ret, set_nth (snd ret) i r))
                   | _, _ => Panic                                    (* nil receiver or nil argument *)
                   end) emptyPacker ;;
              o <- canonical k depth (Branch (updateMask (snd ret)) (snd ret)) ;;
              Ok (o, matches)
          | Leaf1 a => intersectLeaf1 k a n depth
          | Leaf2 x y => intersectLeaf2 k x y n depth
          | Twig _ => Panic                                           (* branch.go:198-199 *)
          end
      end
  end.

(** SubsetOf: leaf1.go:137-139, leaf2.go:184-187, twig.go:239-247, branch.go:242-259. *)
Fixpoint allGet (fuel : nat) (l : list T) (n : node) (depth : nat) : res bool :=
  match l with
  | [] => Ok true
  | e :: l' =>
      b <- has_at fuel n e depth ;;
      if (b : bool) then allGet fuel l' n depth else Ok false
  end.

Fixpoint subsetOf (fuel : nat) (g : gauge) (n n2 : node) (depth : nat) : res bool :=
  match fuel with
  | O => Fuel
  | S k =>
      match n with
      | Leaf1 a => has_at k n2 a depth
      | Leaf2 x y =>
          b <- has_at k n2 x depth ;;
          if (b : bool) then has_at k n2 y depth else Ok false
      | Twig l => allGet k l n2 depth
      | Branch m1 d1 =>
          match n2 with
          | Branch m2 d2 =>
              '(ok, _, _) <- parallel g depth (N.lor m1 m2)
                (fun i (u : unit) =>
                   match child d1 i, child d2 i with
                   | None, _ => Ok (true, 0, u)
                   | Some _, None => Ok (false, 0, u)
                   | Some x, Some y =>
                       b <- subsetOf k (g_sub i g) x y (S depth) ;; Ok (b, 0, u)
                   end) tt ;;
              Ok ok
          | _ => Ok false
          end
      end
  end.

(** twig.go:177-186: every element of [l] has an [eq] partner in [l2]. *)
Definition allIn (eq : T -> T -> bool) (l l2 : list T) : bool :=
  forallb (fun e => existsb (fun f => eq e f) l2) l.

(** Equal: leaf1.go:101-104, leaf2.go:134-138, twig.go:172-189, branch.go:159-171. *)
Fixpoint equal (fuel : nat) (g : gauge) (eq : T -> T -> bool) (n n2 : node) (depth : nat) : res bool :=
  match fuel with
  | O => Fuel
  | S k =>
      match n, n2 with
      | Leaf1 a, Leaf1 b => Ok (eq a b)
      | Leaf2 a b, Leaf2 c d => Ok ((eq a c && eq b d) || (eq a d && eq b c))
      | Twig l, Twig l2 =>
          if (length l =? length l2)%nat then Ok (allIn eq l l2) else Ok false
      | Branch m1 d1, Branch m2 d2 =>
          if (m1 =? m2)%N then
            '(ok, _, _) <- parallel g depth m1
              (fun i (u : unit) =>
                 match child d1 i, child d2 i with
                 | Some x, Some y =>
                     b <- equal k (g_sub i g) eq x y (S depth) ;; Ok (b, 0, u)
                 | _, _ => Panic                                      (* nil receiver or nil argument *)
                 end) tt ;;
            Ok ok
          else Ok false
      | _, _ => Ok false
      end
  end.

(** Where: leaf1.go:149-154, leaf2.go:201-214, twig.go:271-280, branch.go:287-301.
    Simplification (branch.go:297): [nodes != b.p] compares child pointers; when all
    children come back unchanged the code returns the receiver, here its canonical form
    is returned, which is the receiver for the canonical tries the API produces
    (lemma [canonical_wf]). *)
Fixpoint where_ (fuel : nat) (g : gauge) (pred : T -> bool) (n : node) (depth : nat) : res (option node * Z) :=
  match fuel with
  | O => Fuel
  | S k =>
      match n with
      | Leaf1 a => if pred a then Ok (Some n, 1) else Ok (None, 0)
      | Leaf2 a b =>
          match pred a, pred b with
          | true, true => Ok (Some n, 2)
          | true, false => Ok (Some (Leaf1 a), 1)
          | false, true => Ok (Some (Leaf1 b), 1)
          | false, false => Ok (None, 0)
          end
      | Twig l =>
          let l' := filter pred l in
          o <- canonicalTwig k depth l' ;;
          Ok (o, Z.of_nat (length l'))
      | Branch mask data =>
          '(_, matches, nodes) <- parallel g depth mask
            (fun i (nodes : packer) =>
               match child data i with
               | None => Panic                                        (* nil receiver *)
               | Some x =>
                   '(r, m) <- where_ k (g_sub i g) pred x (S depth) ;;
                   Ok (true, m, (fst nodes, set_nth (snd nodes) i r))
               end) emptyPacker ;;
          o <- canonical k depth (Branch (updateMask (snd nodes)) (snd nodes)) ;;
          Ok (o, matches)
      end
  end.

(** Reduce: leaf1.go:125-127, leaf2.go:168-170, twig.go:216-218, branch.go:207-220.
    An unfilled slot of [results] (a zero value in Go) cannot be read: the loop of
    branch.go:216-218 visits the indices the workers filled. *)
Fixpoint reduce (fuel : nat) (g : gauge) (r : list T -> T) (n : node) (depth : nat) : res T :=
  match fuel with
  | O => Fuel
  | S k =>
      match n with
      | Leaf1 a => Ok (r [a])
      | Leaf2 a b => Ok (r [a; b])
      | Twig l => Ok (r l)
      | Branch mask data =>
          '(_, _, results) <- parallel g depth mask
            (fun i (results : list (option T)) =>
               match child data i with
               | None => Panic                                        (* nil receiver *)
               | Some x =>
                   t <- reduce k (g_sub i g) r x (S depth) ;;
                   Ok (true, 0, set_nth results i (Some t))
               end) (repeat None fanout) ;;
          results2 <- foldM (fun acc i =>
              match nth i results None with
              | Some t => Ok (acc ++ [t])
              | None => Panic
              end) [] (mask_indices mask) ;;
          Ok (r results2)
      end
  end.

(** Vet: leaf1.go:145-147, leaf2.go:197-199, twig.go:258-269, branch.go:303-328. *)
Fixpoint vet (fuel : nat) (n : node) : res Z :=
  match fuel with
  | O => Fuel
  | S k =>
      match n with
      | Leaf1 _ => Ok 1
      | Leaf2 _ _ => Ok 2
      | Twig l =>
          if (length l <=? 2)%nat then Panic
          else
            match l with
            | [] => Panic
            | a :: rest =>
                if forallb (fun e => (newHasher e 0 =? newHasher a 0)%N) rest
                then Ok (Z.of_nat (length l)) else Panic
            end
      | Branch mask data =>
          if (updateMask data =? mask)%N then
            foldM (fun count i =>
              match child data i with
              | Some c => m <- vet k c ;; Ok (count + m)
              | None => Panic
              end) 0 (mask_indices mask)
          else Panic
      end
  end.

(** Specification-side view of a node: its elements, in the order the iterator
    visits them. *)
Fixpoint elems (n : node) : list T :=
  match n with
  | Leaf1 a => [a]
  | Leaf2 a b => [a; b]
  | Twig l => l
  | Branch _ data =>
      (fix go (ds : list (option node)) : list T :=
         match ds with
         | [] => []
         | None :: ds' => go ds'
         | Some c :: ds' => elems c ++ go ds'
         end) data
  end.

Definition elemso (o : option node) : list T :=
  match o with Some n => elems n | None => [] end.

End Node.

Arguments packer : clear implicits.
Arguments CombineArgs : clear implicits.
