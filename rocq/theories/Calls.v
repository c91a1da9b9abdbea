(** * Calls: callbacks with state.

    Elsewhere a callback is a mathematical function. Here it may keep state, count its calls or answer differently each time:
    it takes the state of the world [W] and a question [Q] and gives an answer and the new state. The operations below are those of
    Node.v, Tree.v, SetApi.v and MapApi.v with such callbacks. Where goroutines make the calls (Gauge.Parallel), the calls for the
    children of a branch are made in the order [par_order] gives, which is arbitrary (see Env.v).
    Simplification: calls of one goroutine are not interleaved with those of another. *)
From Verif Require Import Base Bits Env Node Iter Tree SetApi MapApi ExtraFacts IntSet.
Local Open Scope Z_scope.

Section World.
Context {W : Type}.

(** Computations that call callbacks. *)
Definition sres (A : Type) : Type := W -> res (A * W).
Definition sret {A} (a : A) : sres A := fun w => Ok (a, w).
Definition slift {A} (m : res A) : sres A := fun w => rmap (fun a => (a, w)) m.
Definition sbind {A B} (m : sres A) (k : A -> sres B) : sres B := fun w => bind (m w) (fun aw => k (fst aw) (snd aw)).
(** A call of the callback. *)
Definition scall {Q R} (cb : W -> Q -> R * W) (q : Q) : sres R := fun w => Ok (cb w q).

(** The calls [tr], questions with answers, take the world from one state to the other. *)
Inductive follows {Q R} (cb : W -> Q -> R * W) : W -> list (Q * R) -> W -> Prop :=
| follows_nil w : follows cb w [] w
| follows_cons w q r w1 tr w2 : cb w q = (r, w1) -> follows cb w1 tr w2 -> follows cb w ((q, r) :: tr) w2.

(** A function that gives the same answers. *)
Definition agrees {Q R} (p : Q -> R) (tr : list (Q * R)) : Prop := forall q r, In (q, r) tr -> p q = r.

End World.

Notation "x <s m ;; k" := (sbind m (fun x => k)) (at level 61, m at next level, right associativity).
Notation "' p <s m ;; k" := (sbind m (fun x => match x with p => k end)) (at level 61, p pattern, m at next level, right associativity).

Section Calls.
Context {E : Env} {T : Type} {K : Key T} {W : Type}.
Notation node := (node T).
Notation sres := (sres (W := W)).

(** A loop over a slice. *)
Fixpoint sfold {A B} (f : B -> A -> sres B) (b : B) (l : list A) : sres B :=
  match l with
  | [] => sret b
  | a :: l' => b' <s f b a ;; sfold f b' l'
  end.

(** depth/gauge.go:33-88 [Parallel] with a worker that always answers true, see [par_loop] in Env.v. *)
Fixpoint spar_loop {P} (f : nat -> P -> sres (Z * P)) (order : list nat) (matches : Z) (x : P) : sres (Z * P) :=
  match order with
  | [] => sret (matches, x)
  | i :: order' => '(m, x') <s f i x ;; spar_loop f order' (matches + m) x'
  end.

(** ** Where *)

(** twig.go:271-280: the loop. *)
Fixpoint sfilter (pred : W -> T -> bool * W) (l : list T) : sres (list T) :=
  match l with
  | [] => sret []
  | e :: l' => p <s scall pred e ;; r <s sfilter pred l' ;; sret (if p : bool then e :: r else r)
  end.

(** leaf1.go:149-154, leaf2.go:201-214, twig.go:271-280, branch.go:287-301 [Where]; compare [where_] in Node.v. *)
Fixpoint whereS (fuel : nat) (g : gauge) (pred : W -> T -> bool * W) (n : node) (depth : nat) : sres (option node * Z) :=
  match fuel with
  | O => slift Fuel
  | S k =>
      match n with
      | Leaf1 a => p <s scall pred a ;; sret (if p : bool then (Some n, 1) else (None, 0))
      | Leaf2 a b =>
          p0 <s scall pred a ;; p1 <s scall pred b ;;
          sret (match p0, p1 with
                | true, true => (Some n, 2)
                | true, false => (Some (Leaf1 a), 1)
                | false, true => (Some (Leaf1 b), 1)
                | false, false => (None, 0)
                end)
      | Twig l =>
          l' <s sfilter pred l ;;
          o <s slift (canonicalTwig k depth l') ;;
          sret (o, Z.of_nat (length l'))
      | Branch mask data =>
          '(matches, nodes) <s spar_loop (fun i (nodes : packer T) =>
              match child data i with
              | None => slift Panic                                     (* nil receiver *)
              | Some x =>
                  '(r, m) <s whereS k (g_sub i g) pred x (S depth) ;;
                  sret (m, (fst nodes, set_nth (snd nodes) i r))
              end) (par_order g depth mask) 0 emptyPacker ;;
          o <s slift (canonical k depth (Branch (updateMask (snd nodes)) (snd nodes))) ;;
          sret (o, matches)
      end
  end.

(** tree.go:178-186, set.go:207-209 [Where]. *)
Definition s_whereS (s : set T) (pred : W -> T -> bool * W) : sres (set T) :=
  match t_root (s_tree s) with
  | None => sret s
  | Some n => '(o, m) <s whereS treeFuel (s_gauge s) pred n 0 ;; sret (mkSet (mkTree o m))
  end.

(** ** Combine *)

(** twig.go:283-290: the loop; the answer replaces the element. *)
Fixpoint replaceFirstS (eq : T -> T -> bool) (f : W -> T * T -> T * W) (l : list T) (v : T) : sres (option (list T)) :=
  match l with
  | [] => sret None
  | e :: l' =>
      if eq e v then r <s scall f (e, v) ;; sret (Some (r :: l'))
      else o <s replaceFirstS eq f l' v ;; sret (option_map (cons e) o)
  end.

(** leaf1.go:156-161, leaf2.go:216-225, twig.go:282-292, branch.go:330-345 [With]; compare [with_] in Node.v. *)
Fixpoint withS (fuel : nat) (eq : T -> T -> bool) (f : W -> T * T -> T * W) (n : node) (v : T) (depth : nat) (h : N) : sres (node * Z) :=
  match fuel with
  | O => slift Fuel
  | S k =>
      match n with
      | Leaf1 a =>
          if eq a v then r <s scall f (a, v) ;; sret (Leaf1 r, 1) else sret (Leaf2 a v, 0)
      | Leaf2 a b =>
          if eq a v then r <s scall f (a, v) ;; sret (Leaf2 r b, 1)
          else if eq b v then r <s scall f (b, v) ;; sret (Leaf2 a r, 1)
          else n' <s slift (newBranchFrom k depth [a; b; v]) ;; sret (n', 0)
      | Twig l =>
          o <s replaceFirstS eq f l v ;;
          match o with
          | Some l' => sret (Twig l', 1)
          | None =>
              o' <s slift (canonicalTwig k depth (l ++ [v])) ;;
              match o' with Some n' => sret (n', 0) | None => slift Panic end
          end
      | Branch mask data =>
          let i := h_hash h in
          match child data i with
          | Some x =>
              '(x2, m) <s withS k eq f x v (S depth) (h_next h) ;;
              sret (newBranch (withChild (mask, data) i (Some x2)), m)
          | None => sret (newBranch (withChild (mask, data) i (Some (Leaf1 v))), 0)
          end
      end
  end.

(** nodeArgs.go:40-50 [Flip]. *)
Definition sflip (f : W -> T * T -> T * W) : W -> T * T -> T * W := fun w ab => f w (snd ab, fst ab).

(** leaf1.go:73-77. *)
Definition combineLeaf1S (eq : T -> T -> bool) (f : W -> T * T -> T * W) (a b : T) : sres (node * Z) :=
  if eq a b then r <s scall f (a, b) ;; sret (Leaf1 r, 1) else sret (Leaf2 a b, 0).

(** leaf2.go:92-102. *)
Definition combineLeaf21S (fuel : nat) (eq : T -> T -> bool) (f : W -> T * T -> T * W) (depth : nat) (l0 l1 nd : T) : sres (node * Z) :=
  if eq l0 nd then r <s scall f (l0, nd) ;; sret (Leaf2 r l1, 1)
  else if eq l1 nd then r <s scall f (l1, nd) ;; sret (Leaf2 l0 r, 1)
  else b <s slift (newBranchFrom fuel depth [l0; l1; nd]) ;; sret (b, 0).

(** leaf2.go:73-91: one round of the loop, and the loop. *)
Definition combineLeaf2S_step (fuel : nat) (eq : T -> T -> bool) (f : W -> T * T -> T * W) (depth : nat)
    (l0 l1 n0 n1 : T) : option (sres (node * Z)) :=
  if eq l0 n0 then
    Some (r0 <s scall f (l0, n0) ;;
          if eq l1 n1 then r1 <s scall f (l1, n1) ;; sret (Leaf2 r0 r1, 2)
          else b <s slift (newBranchFrom fuel depth [r0; l1; n1]) ;; sret (b, 1))
  else if eq l1 n1 then
    Some (r1 <s scall f (l1, n1) ;; b <s slift (newBranchFrom fuel depth [l0; n0; r1]) ;; sret (b, 1))
  else None.
Definition combineLeaf2S (fuel : nat) (eq : T -> T -> bool) (f : W -> T * T -> T * W) (depth : nat)
    (l0 l1 n0 n1 : T) : sres (node * Z) :=
  match combineLeaf2S_step fuel eq f depth l0 l1 n0 n1 with
  | Some r => r
  | None =>
      match combineLeaf2S_step fuel eq f depth l0 l1 n1 n0 with
      | Some r => r
      | None => b <s slift (newBranchFrom fuel depth [l0; l1; n0; n1]) ;; sret (b, 0)
      end
  end.

(** The two calls of [with] in branch.go:113-119. *)
Definition with2S (fuel : nat) (eq : T -> T -> bool) (f : W -> T * T -> T * W) (n : node) (a b : T) (depth : nat) : sres (node * Z) :=
  '(n1, m1) <s withS fuel eq f n a depth (newHasher a depth) ;;
  '(n2, m2) <s withS fuel eq f n1 b depth (newHasher b depth) ;;
  sret (n2, m1 + m2).

(** leaf1.go:67-81, leaf2.go:68-106, twig.go:105-146, branch.go:94-123 [Combine]; compare [combine] in Node.v.
    Simplification: twig.go:105-146 is shortened to its panic. A bucket has at least three elements (C29), and then it always
    panics in the end ([combineTwig_panics]), whatever it called before. *)
Fixpoint combineS (fuel : nat) (g : gauge) (eq : T -> T -> bool) (f : W -> T * T -> T * W) (n n2 : node) (depth : nat) : sres (node * Z) :=
  match fuel with
  | O => slift Fuel
  | S k =>
      match n, n2 with
      | Branch m1 d1, Branch m2 d2 =>
          '(matches, ret) <s spar_loop (fun i (ret : packer T) =>
              match child d1 i, child d2 i with
              | None, y => sret (0, setNonNilChild ret i y)
              | x, None => sret (0, setNonNilChild ret i x)
              | Some x, Some y =>
                  '(r, m) <s combineS k (g_sub i g) eq f x y (S depth) ;;
                  sret (m, (fst ret, set_nth (snd ret) i (Some r)))
              end) (par_order g depth (N.lor m1 m2)) 0 emptyPacker ;;
          sret (Branch (updateMask (snd ret)) (snd ret), matches)
      | Branch _ _, Leaf1 a => withS k eq f n a depth (newHasher a depth)
      | Branch _ _, Leaf2 a b => with2S k eq f n a b depth
      | Leaf1 a, Branch _ _ => withS k eq (sflip f) n2 a depth (newHasher a depth)
      | Leaf1 a, Leaf2 b c => combineLeaf21S k eq (sflip f) depth b c a
      | Leaf1 a, Leaf1 b => combineLeaf1S eq f a b
      | Leaf2 a b, Branch _ _ => with2S k eq (sflip f) n2 a b depth
      | Leaf2 a b, Leaf2 c d => combineLeaf2S k eq f depth a b c d
      | Leaf2 a b, Leaf1 c => combineLeaf21S k eq f depth a b c
      | Twig _, _ | _, Twig _ => slift Panic
      end
  end.

(** tree.go:48-60 [Combine]. *)
Definition t_combineS (g : gauge) (eq : T -> T -> bool) (f : W -> T * T -> T * W) (t u : tree T) : sres (tree T) :=
  match t_root t, t_root u with
  | None, _ => sret u
  | _, None => sret t
  | Some n, Some n2 =>
      '(r, m) <s combineS treeFuel g eq f n n2 0 ;;
      sret (mkTree (Some r) (t_count t + t_count u - m))
  end.

(** ** Reduce *)

(** branch.go:207-220: the results, taken in the order of the mask. *)
Definition collect (results : list (option T)) (mask : N) : res (list T) :=
  foldM (fun acc i => match nth i results None with Some t => Ok (acc ++ [t]) | None => Panic end) [] (mask_indices mask).

(** leaf1.go:125-127, leaf2.go:168-170, twig.go:216-218, branch.go:207-220 [Reduce]; compare [reduce] in Node.v. *)
Fixpoint reduceS (fuel : nat) (g : gauge) (r : W -> list T -> T * W) (n : node) (depth : nat) : sres T :=
  match fuel with
  | O => slift Fuel
  | S k =>
      match n with
      | Leaf1 a => scall r [a]
      | Leaf2 a b => scall r [a; b]
      | Twig l => scall r l
      | Branch mask data =>
          '(_, results) <s spar_loop (fun i (results : list (option T)) =>
              match child data i with
              | None => slift Panic                                     (* nil receiver *)
              | Some x => t <s reduceS k (g_sub i g) r x (S depth) ;; sret (0, set_nth results i (Some t))
              end) (par_order g depth mask) 0 (repeat None fanout) ;;
          l <s slift (collect results mask) ;;
          scall r l
      end
  end.

(** tree.go:157-162, set.go:233-235 [Reduce]. *)
Definition s_reduceS (s : set T) (r : W -> list T -> T * W) : sres (option T) :=
  match t_root (s_tree s) with
  | None => sret None
  | Some n => v <s reduceS treeFuel (s_gauge s) r n 0 ;; sret (Some v)
  end.
(** set.go:240-248: the loop in the callback of [Reduce2] as calls of the binary function. *)
Fixpoint fold2S (op : W -> T * T -> T * W) (acc : T) (l : list T) (w : W) : T * W :=
  match l with
  | [] => (acc, w)
  | e :: l' => let '(acc', w') := op w (acc, e) in fold2S op acc' l' w'
  end.
(** [dflt] as in [reducer2] (SetApi.v). *)
Definition s_reduce2S (dflt : T) (s : set T) (op : W -> T * T -> T * W) : sres (option T) :=
  s_reduceS s (fun w l => match l with [] => (dflt, w) | a :: l' => fold2S op a l' w end).
End Calls.

(** ** Loops over Range *)

(** tree.go:143-155, set.go:217-219 [SetMap]. *)
Definition s_mapS {E : Env} {T U : Type} {KU : Key U} {W : Type} (s : set T) (f : W -> T -> U * W) : sres (W := W) (set U) :=
  match t_root (s_tree s) with
  | None => sret (mkSet emptyTree)
  | Some _ =>
      vs <s slift (t_range (s_tree s)) ;;
      b <s sfold (fun b v => u <s scall f v ;; slift (b_add b u)) emptyTree vs ;;
      sret (mkSet (fst (b_finish b)))
  end.

Section MapCalls.
Context {E : Env} {X V : Type} {KX : Key X} {ZV : Zero V} {W : Type}.
Notation sres := (sres (W := W)).

(** map.go:194-200 [Merge]. The question is (key, a, b). *)
Definition mergeCb (resolve : W -> X * V * V -> V * W) : W -> entry X V * entry X V -> entry X V * W :=
  fun w ab => let '(v, w') := resolve w (e_key (fst ab), e_val (fst ab), e_val (snd ab)) in (newMapEntry (e_key (fst ab)) v, w').
Definition m_mergeS (m n : gomap X V) (resolve : W -> X * V * V -> V * W) : sres (gomap X V) :=
  t <s t_combineS (newGauge (m_count m)) veq (mergeCb resolve) (m_tree m) (m_tree n) ;; sret (mkMap t).

(** map.go:154-162 [Where]. *)
Definition m_whereS (m : gomap X V) (pred : W -> X * V -> bool * W) : sres (gomap X V) :=
  l <s slift (m_entries m) ;;
  b <s sfold (fun b kv => p <s scall pred kv ;; if p : bool then slift (mb_put b (fst kv) (snd kv)) else sret b) (mkMB emptyTree) l ;;
  sret (fst (mb_finish b)).

(** map.go:33-40 [NewMapFromKeys]. *)
Definition m_fromKeysS (keys : set X) (f : W -> X -> V * W) : sres (gomap X V) :=
  ks <s slift (s_elements keys) ;;
  b <s sfold (fun b k => v <s scall f k ;; slift (mb_put b k v)) (newMapBuilder (s_count keys)) ks ;;
  sret (fst (mb_finish b)).

(** map.go:166-173 [MapMap]. *)
Definition m_mapS {U : Type} {ZU : Zero U} (m : gomap X V) (f : W -> X * V -> U * W) : sres (gomap X U) :=
  l <s slift (m_entries m) ;;
  b <s sfold (fun b kv => u <s scall f kv ;; slift (mb_put b (fst kv) u)) (mkMB emptyTree) l ;;
  sret (fst (mb_finish b)).
End MapCalls.

(** set.go:337-357 [SetGroupBy]. *)
Definition s_groupByS {E : Env} {T X : Type} {KT : Key T} {KX : Key X} {W : Type} (s : set T) (key : W -> T -> X * W) : sres (W := W) (gomap X (set T)) :=
  vs <s slift (s_elements s) ;;
  '(builders, store) <s sfold (fun st v => k <s scall key v ;; slift (groupBy_step (fun _ => k) st v)) (mkMB emptyTree, []) vs ;;
  l <s slift (m_entries (fst (mb_finish builders))) ;;
  '(result, _) <s slift (foldM groupBy_collect (mkMB emptyTree, store) l) ;;
  sret (fst (mb_finish result)).

Section IntCalls.
Context {E : Env} (I : intTy) (h : Z -> N -> N) {W : Type}.
Notation sres := (sres (W := W)).
#[local] Instance isKS : Key Z := isK h.

(** intset.go:178-186: the part of [cell] that satisfies [pred]; compare [where_cell] in IntSet.v. *)
Definition where_cellS (pred : W -> Z -> bool * W) (cellIndex : Z) (cell : N) : sres N :=
  let cellOffset := it_wrap I (cellIndex * 64) in
  sfold (fun newCell maskIndex =>
      p <s scall pred (it_wrap I (cellOffset + Z.of_nat maskIndex)) ;;
      sret (if p : bool then N.lor newCell (wshl 64 1 (N.of_nat maskIndex)) else newCell))
    0%N (bit_loop 64 64 cell).
(** intset.go:172-193 [Where]. *)
Definition is_whereS (s : intSet) (pred : W -> Z -> bool * W) : sres intSet :=
  l <s slift (m_entries (is_data s)) ;;
  '(b, count) <s sfold (fun bc kv => c <s where_cellS pred (fst kv) (snd kv) ;; slift (put_cell h bc (fst kv) c)) (mkMB emptyTree, 0) l ;;
  sret (mkIS (fst (mb_finish b)) count).
(** intset.go:196-202 [Map]. *)
Definition is_mapS (ord : list (Z * N) -> list (Z * N)) (s : intSet) (f : W -> Z -> Z * W) : sres intSet :=
  l <s slift (is_elements I s) ;;
  arr <s sfold (fun arr i => v <s scall f i ;; sret (arr ++ [v])) [] l ;;
  slift (is_new h ord arr).
End IntCalls.
