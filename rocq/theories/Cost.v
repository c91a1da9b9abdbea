(** * Cost: the calls of the elements' hash and equality that the operations make.

    The operations below are those of Node.v, Tree.v, SetApi.v and MapApi.v; besides their result they give the list of the calls of
    [hash.Any] (by newHasher, hasher.go:21-23) and of [value.Equal] they make, in order. Where goroutines make the calls
    (Gauge.Parallel), the calls for the children of a branch are listed in the order [par_order] gives, which is arbitrary (see Env.v).
    Simplifications: the calls of one goroutine are not interleaved with those of another; goroutines that are still running when
    Parallel stops early (gauge.go:64-66) are not counted; and the calls made before a panic are not given. *)
From Verif Require Import Base Bits Env Node Iter Tree SetApi MapApi.
Local Open Scope Z_scope.

(** A call: [hash.Any(e, 0)] or [value.Equal(a, b)]. *)
Inductive ask (T : Type) : Type := AHash (e : T) | AEq (a b : T).
Arguments AHash {T}. Arguments AEq {T}.

Section Cost.
Context {E : Env} {T : Type} {K : Key T}.
Notation node := (node T).
Notation ask := (ask T).

(** Results with the calls made. *)
Definition cres (A : Type) : Type := res (A * list ask).
Definition cret {A} (a : A) : cres A := Ok (a, []).
Definition clift {A} (m : res A) : cres A := rmap (fun a => (a, [])) m.
Definition cbind {A B} (m : cres A) (k : A -> cres B) : cres B :=
  bind m (fun x => rmap (fun y => (fst y, snd x ++ snd y)) (k (fst x))).
Definition cmap {A B} (f : A -> B) (m : cres A) : cres B := rmap (fun x => (f (fst x), snd x)) m.

(** hasher.go:21-23 [newHasher]. *)
Definition hashC (e : T) (depth : nat) : cres N := Ok (newHasher e depth, [AHash e]).
(** value.go:28-37 [Equal], or the equality of nodeArgs.go:52-58. *)
Definition eqC (eq : T -> T -> bool) (a b : T) : cres bool := Ok (eq a b, [AEq a b]).

Local Notation "x <c m ;; k" := (cbind m (fun x => k)) (at level 61, m at next level, right associativity).
Local Notation "' p <c m ;; k" := (cbind m (fun x => match x with p => k end)) (at level 61, p pattern, m at next level, right associativity).

(** A loop over a slice. *)
Fixpoint cfold {A B} (f : B -> A -> cres B) (b : B) (l : list A) : cres B :=
  match l with
  | [] => cret b
  | a :: l' => b' <c f b a ;; cfold f b' l'
  end.

(** depth/gauge.go:51-84 [Parallel], compare [par_loop] in Env.v. *)
Fixpoint cpar_loop {P} (f : nat -> P -> cres (bool * Z * P)) (order : list nat) (matches : Z) (x : P) : cres (bool * Z * P) :=
  match order with
  | [] => cret (true, matches, x)
  | i :: order' =>
      o <c f i x ;;
      match o with
      | (ok, m, x') => if (ok : bool) then cpar_loop f order' (matches + m) x' else cret (false, matches, x')
      end
  end.

(** ** Get *)

(** twig.go:191-198: the loop. *)
Fixpoint findC (l : list T) (v : T) : cres (option T) :=
  match l with
  | [] => cret None
  | e :: l' => p <c eqC veq e v ;; if (p : bool) then cret (Some e) else findC l' v
  end.

(** leaf1.go:106-111, leaf2.go:140-147, twig.go:191-198, branch.go:173-179 [Get]. *)
Fixpoint getC (fuel : nat) (n : node) (v : T) (h : N) : cres (option T) :=
  match fuel with
  | O => Fuel
  | S k =>
      match n with
      | Leaf1 a => p <c eqC veq a v ;; cret (if p : bool then Some a else None)
      | Leaf2 a b =>
          p <c eqC veq a v ;;
          if (p : bool) then cret (Some a) else q <c eqC veq b v ;; cret (if q : bool then Some b else None)
      | Twig l => findC l v
      | Branch _ data =>
          match child data (h_hash h) with
          | Some x => getC k x v (h_next h)
          | None => cret None
          end
      end
  end.

(** [n.Get(e, newHasher(e, depth)) != nil]. *)
Definition has_atC (fuel : nat) (n : node) (e : T) (depth : nat) : cres bool :=
  h <c hashC e depth ;; cmap isSome (getC fuel n e h).

(** ** With and the builder's Add *)

(** The loops of twig.go:42-48, 66-72, 283-289 and 295-301. *)
Fixpoint replaceFirstC (eq : T -> T -> bool) (f : T -> T -> T) (l : list T) (v : T) : cres (option (list T)) :=
  match l with
  | [] => cret None
  | e :: l' =>
      p <c eqC eq e v ;;
      if (p : bool) then cret (Some (f e v :: l')) else o <c replaceFirstC eq f l' v ;; cret (option_map (cons e) o)
  end.

(** branch.go:35-45 [newBranchFrom], given the [AddFast] it calls. *)
Definition newBranchFromC_with (addFastC : node -> T -> nat -> N -> cres (node * Z)) (depth : nat) (data : list T) : cres node :=
  if (maxTreeDepth <=? depth)%nat then cret (Twig data)
  else cfold (fun b e => h <c hashC e depth ;; '(b', _) <c addFastC b e depth h ;; cret b') (newBranch emptyPacker) data.

(** leaf1.go:55-61, leaf2.go:51-62, twig.go:65-87, branch.go:61-73 [AddFast]; compare [addFast] in Node.v. *)
Fixpoint addFastC (fuel : nat) (n : node) (v : T) (depth : nat) (h : N) : cres (node * Z) :=
  match fuel with
  | O => Fuel
  | S k =>
      match n with
      | Leaf1 a => p <c eqC veq a v ;; cret (if p : bool then (Leaf1 v, 1) else (Leaf2 a v, 0))
      | Leaf2 a b =>
          p <c eqC veq a v ;;
          if (p : bool) then cret (Leaf2 v b, 1)
          else
            q <c eqC veq b v ;;
            if (q : bool) then cret (Leaf2 a v, 1)
            else n' <c newBranchFromC_with (addFastC k) depth [a; b; v] ;; cret (n', 0)
      | Twig l =>
          o <c replaceFirstC veq (fun _ v => v) l v ;;
          match o with
          | Some l' => cret (Twig l', 1)
          | None =>
              if (maxTreeDepth <=? depth)%nat then cret (Twig (l ++ [v]), 0)
              else
                '(b, m) <c cfold (fun bm e =>
                     h' <c hashC e depth ;;
                     '(b', m) <c addFastC k (fst bm) e depth h' ;;
                     cret (b', snd bm + m)) (newBranch emptyPacker, 0) l ;;
                '(b', m') <c addFastC k b v depth h ;;
                cret (b', m + m')
          end
      | Branch mask data =>
          let i := h_hash h in
          match child data i with
          | None => cret (newBranch (setNonNilChild (mask, data) i (Some (Leaf1 v))), 0)
          | Some c =>
              '(n', m) <c addFastC k c v (S depth) (h_next h) ;;
              cret (newBranch (setNonNilChild (mask, data) i (Some n')), m)
          end
      end
  end.

(** branch.go:35-45 [newBranchFrom]. *)
Definition newBranchFromC (fuel : nat) (depth : nat) (data : list T) : cres node := newBranchFromC_with (addFastC fuel) depth data.

(** twig.go:89-103 [Canonical]. *)
Definition canonicalTwigC (fuel : nat) (depth : nat) (l : list T) : cres (option node) :=
  match l with
  | [] => cret None
  | [a] => cret (Some (Leaf1 a))
  | [a; b] => cret (Some (Leaf2 a b))
  | _ =>
      if ((length l <=? maxLeafLen) || (64 <=? depth * fb))%nat then cret (Some (Twig l))
      else cmap Some (newBranchFromC fuel depth l)
  end.

(** leaf1.go:63-65, leaf2.go:64-66, twig.go:89-103, branch.go:86-92 [Canonical]. *)
Definition canonicalC (fuel : nat) (depth : nat) (n : node) : cres (option node) :=
  match n with
  | Leaf1 _ | Leaf2 _ _ => cret (Some n)
  | Twig l => canonicalTwigC fuel depth l
  | Branch _ _ =>
      match appendTo maxLeafLen n [] with
      | Some data => canonicalTwigC fuel 0 data
      | None => cret (Some n)
      end
  end.

(** leaf1.go:156-161, leaf2.go:216-225, twig.go:282-292, branch.go:330-345 [With], and, with [f] giving the new element,
    leaf1.go:163-168, leaf2.go:227-236, twig.go:294-304, branch.go:347-358 [WithFast]; compare [with_] in Node.v. *)
Fixpoint withC (fuel : nat) (eq : T -> T -> bool) (f : T -> T -> T) (n : node) (v : T) (depth : nat) (h : N) : cres (node * Z) :=
  match fuel with
  | O => Fuel
  | S k =>
      match n with
      | Leaf1 a => p <c eqC eq a v ;; cret (if p : bool then (Leaf1 (f a v), 1) else (Leaf2 a v, 0))
      | Leaf2 a b =>
          p <c eqC eq a v ;;
          if (p : bool) then cret (Leaf2 (f a v) b, 1)
          else
            q <c eqC eq b v ;;
            if (q : bool) then cret (Leaf2 a (f b v), 1)
            else n' <c newBranchFromC k depth [a; b; v] ;; cret (n', 0)
      | Twig l =>
          o <c replaceFirstC eq f l v ;;
          match o with
          | Some l' => cret (Twig l', 1)
          | None =>
              o' <c canonicalTwigC k depth (l ++ [v]) ;;
              match o' with Some n' => cret (n', 0) | None => Panic end
          end
      | Branch mask data =>
          let i := h_hash h in
          match child data i with
          | Some x =>
              '(x2, m) <c withC k eq f x v (S depth) (h_next h) ;;
              cret (newBranch (withChild (mask, data) i (Some x2)), m)
          | None => cret (newBranch (withChild (mask, data) i (Some (Leaf1 v))), 0)
          end
      end
  end.

(** ** Without and the builder's Remove *)

(** The loops of twig.go:221-223 and twig.go:307-309. *)
Fixpoint findIndexC (l : list T) (v : T) : cres (option nat) :=
  match l with
  | [] => cret None
  | e :: l' => p <c eqC veq e v ;; if (p : bool) then cret (Some O) else o <c findIndexC l' v ;; cret (option_map S o)
  end.

(** leaf1.go:170-175, leaf2.go:238-246, twig.go:306-318, branch.go:360-372 [Without]; compare [without] in Node.v. *)
Fixpoint withoutC (fuel : nat) (n : node) (v : T) (depth : nat) (h : N) : cres (option node * Z) :=
  match fuel with
  | O => Fuel
  | S k =>
      match n with
      | Leaf1 a => p <c eqC veq a v ;; cret (if p : bool then (None, 1) else (Some n, 0))
      | Leaf2 a b =>
          p <c eqC veq a v ;;
          if (p : bool) then cret (Some (Leaf1 b), 1)
          else q <c eqC veq b v ;; cret (if q : bool then (Some (Leaf1 a), 1) else (Some n, 0))
      | Twig l =>
          o <c findIndexC l v ;;
          match o with
          | Some i => o' <c canonicalTwigC k depth (swapRemove l i v) ;; cret (o', 1)
          | None => cret (Some n, 0)
          end
      | Branch mask data =>
          let i := h_hash h in
          match child data i with
          | Some x =>
              '(x2, m) <c withoutC k x v (S depth) (h_next h) ;;
              if (m =? 0) then cret (Some n, m)
              else
                let p := updateMaskBit (mask, data) (newMasker i) in
                o <c canonicalC k depth (newBranch (withChild p i x2)) ;;
                cret (o, m)
          | None => cret (Some n, 0)
          end
      end
  end.

(** leaf1.go:129-135, leaf2.go:172-182, twig.go:220-237, branch.go:222-240 [Remove]; compare [remove_] in Node.v. *)
Fixpoint removeC (fuel : nat) (n : node) (v : T) (depth : nat) (h : N) : cres (option node * Z) :=
  match fuel with
  | O => Fuel
  | S k =>
      match n with
      | Leaf1 a => p <c eqC veq a v ;; cret (if p : bool then (None, 1) else (Some n, 0))
      | Leaf2 a b =>
          p <c eqC veq a v ;;
          if (p : bool) then cret (Some (Leaf1 b), 1)
          else q <c eqC veq b v ;; cret (if q : bool then (Some (Leaf1 a), 1) else (Some n, 0))
      | Twig l =>
          o <c findIndexC l v ;;
          match o with
          | Some i =>
              if (length l - 1 =? 0)%nat then cret (None, 1)
              else o' <c canonicalTwigC k depth (swapRemove l i v) ;; cret (o', 1)
          | None => cret (Some n, 0)
          end
      | Branch mask data =>
          let i := h_hash h in
          match child data i with
          | Some c =>
              '(n', m) <c removeC k c v (S depth) (h_next h) ;;
              let data' := set_nth data i n' in
              let keep := cret (Some (Branch (updateMask data') data'), m) in
              match n' with
              | Some (Branch _ _) => keep
              | _ =>
                  match appendTo maxLeafLen (Branch mask data') [] with
                  | Some es => l <c clift (newLeaf es) ;; cret (Some l, m)
                  | None => keep
                  end
              end
          | None => cret (Some n, 0)
          end
      end
  end.

(** ** Difference, Intersection, SubsetOf, Equal *)

(** The loops of twig.go:157-164 and twig.go:202-208. *)
Fixpoint filterGetC (fuel : nat) (keep : bool) (l : list T) (n : node) (depth : nat) : cres (list T * Z) :=
  match l with
  | [] => cret ([], 0)
  | e :: l' =>
      b <c has_atC fuel n e depth ;;
      '(r, m) <c filterGetC fuel keep l' n depth ;;
      cret (if Bool.eqb b keep then e :: r else r, if b then m + 1 else m)
  end.

(** leaf1.go:90-95, leaf2.go:115-128, twig.go:155-166, branch.go:125-153 [Difference]; compare [difference] in Node.v. *)
Fixpoint differenceC (fuel : nat) (g : gauge) (n n2 : node) (depth : nat) : cres (option node * Z) :=
  match fuel with
  | O => Fuel
  | S k =>
      match n with
      | Leaf1 a =>
          b <c has_atC k n2 a depth ;;
          cret (if (b : bool) then (None, 1) else (Some n, 0))
      | Leaf2 x y =>
          a <c has_atC k n2 x depth ;;
          b <c has_atC k n2 y depth ;;
          cret (match a, b with
                | true, true => (None, 2)
                | true, false => (Some (Leaf1 y), 1)
                | false, true => (Some (Leaf1 x), 1)
                | false, false => (Some n, 0)
                end)
      | Twig l =>
          '(l', m) <c filterGetC k false l n2 depth ;;
          o <c canonicalTwigC k depth l' ;;
          cret (o, m)
      | Branch m1 d1 =>
          match n2 with
          | Branch _ d2 =>
              '(_, matches, ret) <c cpar_loop (fun i (ret : packer T) =>
                   match child d1 i, child d2 i with
                   | x, None => cret (true, 0, (fst ret, set_nth (snd ret) i x))
                   | None, Some _ => Panic                            (* nil receiver *)
                   | Some x, Some y =>
                       '(r, m) <c differenceC k (g_sub i g) x y (S depth) ;;
                       cret (true, m, (fst ret, set_nth (snd ret) i r))
                   end) (par_order g depth m1) 0 emptyPacker ;;
              o <c canonicalC k depth (Branch (updateMask (snd ret)) (snd ret)) ;;
              cret (o, matches)
          | Leaf1 a => h <c hashC a depth ;; withoutC k n a depth h
          | Leaf2 a b =>
              h <c hashC a depth ;;
              '(o1, m1) <c withoutC k n a depth h ;;
              h' <c hashC b depth ;;
              match o1 with
              | None => Panic                                         (* nil receiver *)
              | Some n1 =>
                  '(o2, m2) <c withoutC k n1 b depth h' ;;
                  cret (o2, m1 + m2)
              end
          | Twig _ => Panic                                           (* branch.go:150-151 *)
          end
      end
  end.

(** leaf1.go:113-118, leaf2.go:149-162 [Intersection]. *)
Definition intersectLeaf1C (fuel : nat) (a : T) (n2 : node) (depth : nat) : cres (option node * Z) :=
  b <c has_atC fuel n2 a depth ;;
  cret (if (b : bool) then (Some (Leaf1 a), 1) else (None, 0)).
Definition intersectLeaf2C (fuel : nat) (x y : T) (n2 : node) (depth : nat) : cres (option node * Z) :=
  g0 <c has_atC fuel n2 x depth ;;
  g1 <c has_atC fuel n2 y depth ;;
  cret (match g0, g1 with
        | true, true => (Some (Leaf2 x y), 2)
        | true, false => (Some (Leaf1 x), 1)
        | false, true => (Some (Leaf1 y), 1)
        | false, false => (None, 0)
        end).

(** leaf1.go:113-118, leaf2.go:149-162, twig.go:200-210, branch.go:181-201 [Intersection]; compare [intersection] in Node.v. *)
Fixpoint intersectionC (fuel : nat) (g : gauge) (n n2 : node) (depth : nat) : cres (option node * Z) :=
  match fuel with
  | O => Fuel
  | S k =>
      match n with
      | Leaf1 a => intersectLeaf1C k a n2 depth
      | Leaf2 x y => intersectLeaf2C k x y n2 depth
      | Twig l =>
          '(l', m) <c filterGetC k true l n2 depth ;;
          o <c canonicalTwigC k depth l' ;;
          cret (o, m)
      | Branch m1 d1 =>
          match n2 with
          | Branch m2 d2 =>
              '(_, matches, ret) <c cpar_loop (fun i (ret : packer T) =>
                   match child d1 i, child d2 i with
                   | Some x, Some y =>
                       '(r, m) <c intersectionC k (g_sub i g) x y (S depth) ;;
                       cret (true, m, (fst ret, set_nth (snd ret) i r))
                   | _, _ => Panic                                    (* nil receiver or nil argument *)
                   end) (par_order g depth (N.land m1 m2)) 0 emptyPacker ;;
              o <c canonicalC k depth (Branch (updateMask (snd ret)) (snd ret)) ;;
              cret (o, matches)
          | Leaf1 a => intersectLeaf1C k a n depth
          | Leaf2 x y => intersectLeaf2C k x y n depth
          | Twig _ => Panic                                           (* branch.go:198-199 *)
          end
      end
  end.

(** twig.go:239-247: the loop. *)
Fixpoint allGetC (fuel : nat) (l : list T) (n : node) (depth : nat) : cres bool :=
  match l with
  | [] => cret true
  | e :: l' =>
      b <c has_atC fuel n e depth ;;
      if (b : bool) then allGetC fuel l' n depth else cret false
  end.

(** leaf1.go:137-139, leaf2.go:184-187, twig.go:239-247, branch.go:242-259 [SubsetOf]; compare [subsetOf] in Node.v. *)
Fixpoint subsetOfC (fuel : nat) (g : gauge) (n n2 : node) (depth : nat) : cres bool :=
  match fuel with
  | O => Fuel
  | S k =>
      match n with
      | Leaf1 a => has_atC k n2 a depth
      | Leaf2 x y =>
          b <c has_atC k n2 x depth ;;
          if (b : bool) then has_atC k n2 y depth else cret false
      | Twig l => allGetC k l n2 depth
      | Branch m1 d1 =>
          match n2 with
          | Branch m2 d2 =>
              '(ok, _, _) <c cpar_loop (fun i (u : unit) =>
                   match child d1 i, child d2 i with
                   | None, _ => cret (true, 0, u)
                   | Some _, None => cret (false, 0, u)
                   | Some x, Some y =>
                       b <c subsetOfC k (g_sub i g) x y (S depth) ;; cret (b, 0, u)
                   end) (par_order g depth (N.lor m1 m2)) 0 tt ;;
              cret ok
          | _ => cret false
          end
      end
  end.

(** twig.go:177-186: the loops. *)
Fixpoint anyEqC (eq : T -> T -> bool) (e : T) (l2 : list T) : cres bool :=
  match l2 with
  | [] => cret false
  | f :: l2' => p <c eqC eq e f ;; if (p : bool) then cret true else anyEqC eq e l2'
  end.
Fixpoint allInC (eq : T -> T -> bool) (l l2 : list T) : cres bool :=
  match l with
  | [] => cret true
  | e :: l' => p <c anyEqC eq e l2 ;; if (p : bool) then allInC eq l' l2 else cret false
  end.

(** [eq(a, c) && eq(b, d)]. *)
Definition pairEqC (eq : T -> T -> bool) (a b c d : T) : cres bool :=
  p <c eqC eq a c ;; if (p : bool) then eqC eq b d else cret false.

(** leaf1.go:101-104, leaf2.go:134-138, twig.go:172-189, branch.go:159-171 [Equal]; compare [equal] in Node.v. *)
Fixpoint equalC (fuel : nat) (g : gauge) (eq : T -> T -> bool) (n n2 : node) (depth : nat) : cres bool :=
  match fuel with
  | O => Fuel
  | S k =>
      match n, n2 with
      | Leaf1 a, Leaf1 b => eqC eq a b
      | Leaf2 a b, Leaf2 c d => p <c pairEqC eq a b c d ;; if (p : bool) then cret true else pairEqC eq a b d c
      | Twig l, Twig l2 =>
          if (length l =? length l2)%nat then allInC eq l l2 else cret false
      | Branch m1 d1, Branch m2 d2 =>
          if (m1 =? m2)%N then
            '(ok, _, _) <c cpar_loop (fun i (u : unit) =>
                 match child d1 i, child d2 i with
                 | Some x, Some y =>
                     b <c equalC k (g_sub i g) eq x y (S depth) ;; cret (b, 0, u)
                 | _, _ => Panic                                      (* nil receiver or nil argument *)
                 end) (par_order g depth m1) 0 tt ;;
            cret ok
          else cret false
      | _, _ => cret false
      end
  end.

(** ** Combine *)

(** leaf2.go:75-90: one round of the loop. *)
Definition combineLeaf2C_step (fuel : nat) (args : CombineArgs T) (depth : nat) (l0 l1 n0 n1 : T) : cres (option (node * Z)) :=
  p <c eqC (c_eq args) l0 n0 ;;
  if (p : bool) then
    let r0 := c_f args l0 n0 in
    q <c eqC (c_eq args) l1 n1 ;;
    if (q : bool) then cret (Some (Leaf2 r0 (c_f args l1 n1), 2))
    else b <c newBranchFromC fuel depth [r0; l1; n1] ;; cret (Some (b, 1))
  else
    q <c eqC (c_eq args) l1 n1 ;;
    if (q : bool) then b <c newBranchFromC fuel depth [l0; n0; c_f args l1 n1] ;; cret (Some (b, 1))
    else cret None.

(** leaf2.go:73-91. *)
Definition combineLeaf2C (fuel : nat) (args : CombineArgs T) (depth : nat) (l0 l1 n0 n1 : T) : cres (node * Z) :=
  o <c combineLeaf2C_step fuel args depth l0 l1 n0 n1 ;;
  match o with
  | Some r => cret r
  | None =>
      o' <c combineLeaf2C_step fuel args depth l0 l1 n1 n0 ;;
      match o' with
      | Some r => cret r
      | None => b <c newBranchFromC fuel depth [l0; l1; n0; n1] ;; cret (b, 0)
      end
  end.

(** leaf1.go:73-77. *)
Definition combineLeaf1C (args : CombineArgs T) (a b : T) : cres (node * Z) :=
  p <c eqC (c_eq args) a b ;; cret (if (p : bool) then (Leaf1 (c_f args a b), 1) else (Leaf2 a b, 0)).

(** leaf2.go:92-102. *)
Definition combineLeaf21C (fuel : nat) (args : CombineArgs T) (depth : nat) (l0 l1 nd : T) : cres (node * Z) :=
  p <c eqC (c_eq args) l0 nd ;;
  if (p : bool) then cret (Leaf2 (c_f args l0 nd) l1, 1)
  else
    q <c eqC (c_eq args) l1 nd ;;
    if (q : bool) then cret (Leaf2 l0 (c_f args l1 nd), 1)
    else b <c newBranchFromC fuel depth [l0; l1; nd] ;; cret (b, 0).

(** leaf1.go:67-81, leaf2.go:68-106, twig.go:105-146, branch.go:94-123 [Combine]; compare [combine] in Node.v.
    Simplification: the calls made by Combine of two twigs are left out; that call panics unless the second twig adds nothing new
    (C13), and the second of two well-formed twigs at one place has at least three elements, so it always panics. *)
Fixpoint combineC (fuel : nat) (args : CombineArgs T) (n n2 : node) (depth : nat) : cres (node * Z) :=
  match fuel with
  | O => Fuel
  | S k =>
      match n, n2 with
      | Branch m1 d1, Branch m2 d2 =>
          '(_, matches, ret) <c cpar_loop (fun i (ret : packer T) =>
               match child d1 i, child d2 i with
               | None, y => cret (true, 0, setNonNilChild ret i y)
               | x, None => cret (true, 0, setNonNilChild ret i x)
               | Some x, Some y =>
                   '(r, m) <c combineC k (c_sub i args) x y (S depth) ;;
                   cret (true, m, (fst ret, set_nth (snd ret) i (Some r)))
               end) (par_order (c_gauge args) depth (N.lor m1 m2)) 0 emptyPacker ;;
          cret (Branch (updateMask (snd ret)) (snd ret), matches)
      | Branch _ _, Leaf1 a => h <c hashC a depth ;; withC k (c_eq args) (c_f args) n a depth h
      | Branch _ _, Leaf2 a b =>
          h <c hashC a depth ;;
          '(n', m1) <c withC k (c_eq args) (c_f args) n a depth h ;;
          h' <c hashC b depth ;;
          '(n'', m2) <c withC k (c_eq args) (c_f args) n' b depth h' ;;
          cret (n'', m1 + m2)
      | Branch _ _, Twig _ => Panic                                   (* branch.go:120-121 *)
      | Leaf1 a, Branch _ _ => h <c hashC a depth ;; withC k (c_eq args) (fun x y => c_f args y x) n2 a depth h
      | Leaf1 a, Leaf2 b c => combineLeaf21C k (flip_args args) depth b c a
      | Leaf1 a, Leaf1 b => combineLeaf1C args a b
      | Leaf1 _, Twig _ => Panic                                      (* leaf1.go:78-79 *)
      | Leaf2 a b, Branch _ _ =>
          h <c hashC a depth ;;
          '(n', m1) <c withC k (c_eq args) (fun x y => c_f args y x) n2 a depth h ;;
          h' <c hashC b depth ;;
          '(n'', m2) <c withC k (c_eq args) (fun x y => c_f args y x) n' b depth h' ;;
          cret (n'', m1 + m2)
      | Leaf2 a b, Leaf2 c d => combineLeaf2C k args depth a b c d
      | Leaf2 a b, Leaf1 c => combineLeaf21C k args depth a b c
      | Leaf2 _ _, Twig _ => Panic                                    (* leaf2.go:103-104 *)
      | Twig l, Twig l2 => clift (combineTwig k args depth l l2)
      | Twig _, _ => Panic                                            (* twig.go:110-111 *)
      end
  end.

End Cost.

Notation "x <c m ;; k" := (cbind m (fun x => k)) (at level 61, m at next level, right associativity).
Notation "' p <c m ;; k" := (cbind m (fun x => match x with p => k end)) (at level 61, p pattern, m at next level, right associativity).

(** ** Trees *)

Section CostApi.
Context {E : Env} {T : Type} {K : Key T}.

(** tree.go:84-90 [Get]. *)
Definition t_getC (t : tree T) (v : T) : cres (option T) :=
  match t_root t with
  | None => cret None
  | Some n => h <c hashC v 0 ;; getC treeFuel n v h
  end.

(** tree.go:187-197 [With]. *)
Definition t_withC (t : tree T) (v : T) : cres (T := T) (tree T) :=
  match t_root t with
  | None => cret (mkTree (Some (Leaf1 v)) 1)
  | Some n =>
      h <c hashC v 0 ;;
      '(r, m) <c withC treeFuel veq (fun _ v => v) n v 0 h ;;
      cret (mkTree (Some r) (t_count t + 1 - m))
  end.

(** tree.go:199-209 [Without]. *)
Definition t_withoutC (t : tree T) (v : T) : cres (T := T) (tree T) :=
  match t_root t with
  | None => cret t
  | Some n =>
      h <c hashC v 0 ;;
      '(o, m) <c withoutC treeFuel n v 0 h ;;
      cret (mkTree o (t_count t - m))
  end.

(** builder.go:50-64 [Add]. *)
Definition b_addC (b : tree T) (v : T) : cres (T := T) (tree T) :=
  match t_root b with
  | None => cret (mkTree (Some (Leaf1 v)) 1)
  | Some n =>
      h <c hashC v 0 ;;
      '(r, m) <c addFastC treeFuel n v 0 h ;;
      cret (mkTree (Some r) (t_count b + (1 - m)))
  end.

(** builder.go:66-77 [Remove]. *)
Definition b_removeC (b : tree T) (v : T) : cres (T := T) (tree T) :=
  match t_root b with
  | None => cret b
  | Some n =>
      h <c hashC v 0 ;;
      '(o, m) <c removeC treeFuel n v 0 h ;;
      cret (mkTree o (t_count b - m))
  end.

(** tree.go:62-71 [Difference]. *)
Definition t_differenceC (g : gauge) (t u : tree T) : cres (T := T) (tree T) :=
  match t_root t, t_root u with
  | Some n, Some n2 =>
      '(o, m) <c differenceC treeFuel g n n2 0 ;;
      cret (mkTree o (t_count t - m))
  | _, _ => cret t
  end.

(** tree.go:92-104 [Intersection]. *)
Definition t_intersectionC (g : gauge) (t u : tree T) : cres (T := T) (tree T) :=
  match t_root t, t_root u with
  | Some n, Some n2 =>
      let '(n, n2) := if t_count u <? t_count t then (n2, n) else (n, n2) in
      '(o, m) <c intersectionC treeFuel g n n2 0 ;;
      cret (mkTree o m)
  | _, _ => cret emptyTree
  end.

(** tree.go:48-60 [Combine]. *)
Definition t_combineC (args : CombineArgs T) (t u : tree T) : cres (T := T) (tree T) :=
  match t_root t, t_root u with
  | None, _ => cret u
  | _, None => cret t
  | Some n, Some n2 =>
      '(r, m) <c combineC treeFuel args n n2 0 ;;
      cret (mkTree (Some r) (t_count t + t_count u - m))
  end.

(** tree.go:73-82 [Equal]. *)
Definition t_equalC (g : gauge) (eq : T -> T -> bool) (t u : tree T) : cres (T := T) bool :=
  if negb (t_count t =? t_count u) then cret false
  else if (t_count t =? 0) && (t_count u =? 0) then cret true
  else
    match t_root t, t_root u with
    | Some n, Some n2 => equalC treeFuel g eq n n2 0
    | Some n, None => cret false
    | None, _ => Panic
    end.

(** tree.go:133-141 [SubsetOf]. *)
Definition t_subsetOfC (g : gauge) (t u : tree T) : cres (T := T) bool :=
  match t_root t, t_root u with
  | None, _ => cret true
  | _, None => cret false
  | Some n, Some n2 => subsetOfC treeFuel g n n2 0
  end.

(** ** Sets *)

(** set.go:190-192 [Has]. *)
Definition s_hasC (s : set T) (v : T) : cres bool := cmap isSome (t_getC (s_tree s) v).
(** set.go:195-198 [With]. *)
Definition s_withC (s : set T) (v : T) : cres (T := T) (set T) := cmap (@mkSet T) (t_withC (s_tree s) v).
(** set.go:201-204 [Without]. *)
Definition s_withoutC (s : set T) (v : T) : cres (T := T) (set T) := cmap (@mkSet T) (t_withoutC (s_tree s) v).
(** set.go:173-176 [Equal]. *)
Definition s_equalC (s t : set T) : cres (T := T) bool := t_equalC (s_gauge s) veq (s_tree s) (s_tree t).
(** set.go:185-187 [IsSubsetOf]. *)
Definition s_isSubsetOfC (s t : set T) : cres (T := T) bool := t_subsetOfC (s_gauge s) (s_tree s) (s_tree t).
(** set.go:251-253 [Intersection]. *)
Definition s_intersectionC (s t : set T) : cres (T := T) (set T) := cmap (@mkSet T) (t_intersectionC (s_gauge s) (s_tree s) (s_tree t)).
(** set.go:256-259 [Union]. *)
Definition s_unionC (s t : set T) : cres (T := T) (set T) :=
  cmap (@mkSet T) (t_combineC (combineArgs (s_gauge s) useRHS) (s_tree s) (s_tree t)).
(** set.go:262-264 [Difference]. *)
Definition s_differenceC (s t : set T) : cres (T := T) (set T) := cmap (@mkSet T) (t_differenceC NonParallel (s_tree s) (s_tree t)).

(** set_builder.go:24-26 [Add]. *)
Definition sb_addC (b : setBuilder T) (v : T) : cres (T := T) (setBuilder T) := cmap (@mkSB T) (b_addC (sb_tree b) v).
(** set_builder.go:29-31 [Remove]. *)
Definition sb_removeC (b : setBuilder T) (v : T) : cres (T := T) (setBuilder T) := cmap (@mkSB T) (b_removeC (sb_tree b) v).
(** set.go:33-39 [NewSet]. *)
Definition s_newC (vs : list T) : cres (T := T) (set T) :=
  b <c cfold sb_addC (newSetBuilder (Z.of_nat (length vs))) vs ;; cret (fst (sb_finish b)).

End CostApi.

Section CostMap.
Context {E : Env} {X V : Type} {KX : Key X} {ZV : Zero V}.

(** map.go:90-95 [Get]; the questions are about entries, whose hash and equality are those of their keys. *)
Definition m_getC (m : gomap X V) (k : X) : cres (option V) := cmap (option_map (@e_val X V)) (t_getC (m_tree m) (newMapKey k)).
(** map.go:71-74 [With]. *)
Definition m_withC (m : gomap X V) (k : X) (v : V) : cres (T := entry X V) (gomap X V) :=
  cmap (@mkMap X V) (t_withC (m_tree m) (newMapEntry k v)).
(** map.go:78-81 [Without]. *)
Definition m_withoutC (m : gomap X V) (k : X) : cres (T := entry X V) (gomap X V) :=
  cmap (@mkMap X V) (t_withoutC (m_tree m) (newMapKey k)).
(** map.go:204-212 [Update]. *)
Definition m_updateC (m n : gomap X V) : cres (T := entry X V) (gomap X V) :=
  let '(m, n, f) := if m_count n <? m_count m then (n, m, useLHS) else (m, n, useRHS) in
  cmap (@mkMap X V) (t_combineC (mkCombineArgs (newGauge (m_count m)) veq f) (m_tree m) (m_tree n)).
End CostMap.
