(** * Upstream: the project's own tests, run on the model.

    The project's test files say what its authors expect the program to answer in concrete cases.
    Each example below is one of these tests, translated by hand to the model and evaluated in it, with
    a build of 8 children per branch where all the goroutines finish in reverse ([E0]) and one of 4
    children without parallelism ([E4]). The Go tests themselves were not run, so this compares the model
    with the expectations, not with the program. Sizes are smaller than in the tests. Left out:
    TestSetNewSetFromStrings and TestSetBuilderIncremental (TestSetNewSet with other elements and sizes), the
    second round of lazy TestSet, and most of the relations of TestJoinExhaustive. A test is [Ok true] if
    every assertion of it holds and no call panics that should not. *)
From Coq Require Import String.
From Verif Require Import Base Bits Env EnvFacts Node Iter Tree SetApi GoHeap Ordered MapApi IntSet Rel RelVal Dyn Lazy Text ExampleData.
Local Open Scope Z_scope.

(** ** Vocabulary *)

(** Go's int with a hash that spreads, standing for [hash.Int] (an external module). It is quick to evaluate without the virtual
    machine, which coqchk does not have. *)
#[local] Instance KI : Key Z := {|
  veq := Z.eqb;
  vhash := fun a seed => wrap 64 ((Z.to_N (Z.abs a) + if a <? 0 then 0x10000 else 1) * 0x9E37 + seed);
|}.
(** branch_hash_test.go:13-19 [intWithBadHash]. *)
Definition KBad : Key Z := {| veq := Z.eqb; vhash := fun a seed => vhash (Z.rem a 100) seed |}.

(** How ints are printed. *)
#[local] Instance decFmt : Fmt Z := {| fmt_v := decimal; fmt_f := fun _ => decimal |}.

Definition upto (a b : Z) : list Z := map (fun i => a + Z.of_nat i) (seq 0 (Z.to_nat (b - a))).
Fixpoint allM {A} (f : A -> res bool) (l : list A) : res bool :=
  match l with
  | [] => Ok true
  | a :: l => b <- f a ;; if b then allM f l else Ok false
  end.
Definition all (l : list (res bool)) : res bool := allM (fun b => b) l.
Definition panics {A} (r : res A) : res bool := match r with Panic => Ok true | Ok _ => Ok false | Fuel => Fuel end.
Definition is_ {A} (eq : A -> A -> bool) (a : A) (r : res A) : res bool := x <- r ;; Ok (eq a x).
Definition no (r : res bool) : res bool := rmap negb r.
Definition mem (l : list Z) (x : Z) : bool := existsb (Z.eqb x) l.
Definition sameElements (l l' : list Z) : bool := (forallb (mem l) l' && forallb (mem l') l)%bool.
Definition listEq {A} (eq : A -> A -> bool) : list A -> list A -> bool :=
  fix go l l' := match l, l' with
  | [], [] => true
  | a :: l, b :: l' => (eq a b && go l l')%bool
  | _, _ => false
  end.
(** internal/pkg/test/set/setequal.go:9-28 [AssertSetEqual]. *)
Definition setEqual {E : Env} {T} {K : Key T} (a b : res (set T)) : res bool := x <- a ;; y <- b ;; s_equal x y.
(** testutil_test.go:67-84 [assertMapEqual]. *)
Definition mapEqual {E : Env} {X V} {KX : Key X} {KV : Key V} (a b : res (gomap X V)) : res bool :=
  x <- a ;; y <- b ;; m_equal x y.
Definition fuel : nat := 500.

(** ** set_test.go *)
Section SetTests.
Context {E : Env}.
Notation new := (@s_new E Z KI).

(** set_test.go:23-29. *)
Definition TestSetEmpty : res bool := all [Ok (s_isEmpty (@s_empty Z)); setEqual (Ok s_empty) (new [])].
(** set_test.go:75-93. *)
Definition TestSetNewSet : res bool :=
  allM (fun i => s <- new (upto i 10) ;; els <- s_elements s ;;
    Ok ((s_count s =? 10 - i) && sameElements (upto i 10) els)%bool) (rev (upto 0 10)).
(** set_test.go:95-101. *)
Definition TestSetNew2 : res bool := setEqual (new [1; 2]) (new [2; 1]).
(** set_test.go:117-149. *)
Definition TestSetWith : res bool :=
  r <- foldM (fun (st : set Z * bool) i => let (s, ok) := st in
         e <- setEqual (new (upto 0 i)) (Ok s) ;;
         h <- s_has s i ;;
         s' <- s_with s i ;;
         h' <- s_has s' i ;;
         Ok (s', ok && e && (s_count s =? i) && negb h && h' && negb (s_isEmpty s'))%bool) (s_empty, true) (upto 0 10) ;;
  Ok (snd r).
(** set_test.go:151-183. *)
Definition TestSetWithout : res bool :=
  s <- foldM s_with s_empty (upto 0 10) ;;
  r <- foldM (fun (st : set Z * bool) i => let (s, ok) := st in
         u <- new (upto i 10) ;;
         els <- s_elements u ;;
         e <- s_equal u s ;;
         h <- s_has s i ;;
         s' <- s_without s i ;;
         h' <- s_has s' i ;;
         Ok (s', ok && sameElements (upto i 10) els && e && negb (s_isEmpty s) && h && negb h')%bool) (s, true) (upto 0 10) ;;
  Ok (snd r && s_isEmpty (fst r))%bool.
(** set_test.go:185-195. *)
Definition TestSetAny : res bool :=
  all [panics (s_any (@s_empty Z)); s <- new [1] ;; is_ Z.eqb 1 (s_any s); s <- new [1; 2] ;; i <- s_any s ;; Ok ((i =? 1) || (i =? 2))%bool].
(** set_test.go:197-211. *)
Definition TestSetAnyN : res bool :=
  let n s k := s <- s ;; rmap s_count (s_anyN s k) in
  all [is_ Z.eqb 0 (n (Ok s_empty) 0); is_ Z.eqb 1 (n (new [1]) 1); is_ Z.eqb 1 (n (new [1]) 2); is_ Z.eqb 1 (n (new [1]) 4095);
       is_ Z.eqb 1 (n (s_iota fuel 30) 1); s <- s_iota fuel 30 ;; setEqual (s_iota fuel 30) (s_anyN s 30)].
(** set_test.go:213-222. *)
Definition TestSetOrderedElements : res bool :=
  s <- s_iota fuel 40 ;;
  all [is_ (listEq Z.eqb) (upto 0 40) (s_orderedElements Z.ltb s); is_ (listEq Z.eqb) (rev (upto 0 40)) (s_orderedElements Z.gtb s)].
(** set_test.go:250-269. *)
Definition TestSetEqual : res bool :=
  sets <- foldM (fun l s => s <- s ;; Ok (l ++ [s])) []
    [Ok s_empty; new [1]; new [2]; new [1; 2]; new (upto 1 11); s_iota fuel 7; (s <- s_iota fuel 7 ;; s_anyN s 6)] ;;
  n <- new [42] ;;
  allM (fun ia => e42 <- s_equal (snd ia) n ;;
    r <- allM (fun jb => e <- s_equal (snd ia) (snd jb) ;; Ok (Bool.eqb e (fst ia =? fst jb))) (List.combine (upto 0 7) sets) ;;
    Ok (r && negb e42)%bool) (List.combine (upto 0 7) sets).
(** set_test.go:271-291. *)
Definition TestSetEqualLarge : res bool :=
  a <- foldM s_with s_empty (upto 0 30) ;; b <- foldM s_with s_empty (upto 0 30) ;;
  all [Ok (s_count a =? 30); Ok (s_count b =? 30); s_equal a b].
(** set_test.go:293-305. *)
Definition TestSetFirst : res bool :=
  s <- s_iota fuel 40 ;;
  all [panics (s_first Z.ltb (@s_empty Z)); is_ Z.eqb 0 (s_first Z.ltb s); is_ Z.eqb 39 (s_first Z.gtb s)].
(** set_test.go:307-322. *)
Definition TestSetFirstN : res bool :=
  s <- s_iota fuel 30 ;; s5 <- s_iota fuel 5 ;;
  all [setEqual (new []) (s_firstN 0 Z.ltb s_empty); setEqual (new []) (s_firstN 1 Z.ltb s_empty);
       setEqual (new [0]) (s_firstN 1 Z.ltb s); setEqual (Ok s) (s_firstN 30 Z.ltb s);
       setEqual (new [0; 1; 2; 3; 4]) (s_firstN 10 Z.ltb s5)].
(** set_test.go:324-339. *)
Definition TestSetOrderedFirstN : res bool :=
  s <- s_iota fuel 40 ;; s5 <- s_iota fuel 5 ;;
  let same l r := is_ (listEq Z.eqb) l r in
  all [same [] (s_orderedFirstN 0 Z.ltb s_empty); same [] (s_orderedFirstN 1 Z.ltb s_empty);
       same (upto 0 40) (s_orderedFirstN 40 Z.ltb s); same [0; 1; 2; 3; 4] (s_orderedFirstN 5 Z.ltb s);
       same [0; 1; 2; 3; 4] (s_orderedFirstN 10 Z.ltb s5)].
(** set_test.go:341-359. *)
Definition TestSetIsSubsetOf : res bool :=
  allM (fun i => a <- s_fromMask64 i ;; allM (fun j => b <- s_fromMask64 j ;; r <- s_isSubsetOf a b ;;
    Ok (Bool.eqb r (N.ldiff i j =? 0)%N)) (map N.of_nat (seq 0 10))) (map N.of_nat (seq 0 10)).
(** set_test.go:361-376. *)
Definition TestSetIsSubsetOfLarge : res bool :=
  a <- new (upto 0 25) ;; b <- new (upto 0 26) ;; c <- new (upto 1 26) ;;
  all [s_isSubsetOf a a; s_isSubsetOf a b; no (s_isSubsetOf b a); no (s_isSubsetOf a c); no (s_isSubsetOf c a)].
(** set_test.go:378-387. *)
Definition TestSetString : res bool :=
  let text l := s <- new l ;; s_string s in
  let either r := x <- r ;; Ok ((x =? "{1, 2}") || (x =? "{2, 1}"))%string%bool in
  all [is_ String.eqb "{}"%string (text []); is_ String.eqb "{1}"%string (text [1]); either (text [1; 2]); either (text [2; 1])].
(** set_test.go:389-418 ([TestSetWhereEmpty] and [TestSetWhere]). *)
Definition TestSetWhere : res bool :=
  s <- s_iota2 fuel 1 10 ;;
  let m n e := Z.rem e n =? 0 in
  let nt f (e : Z) := negb (f e) in
  let w f s := s <- s ;; s_where s f in
  all [setEqual (new []) (w (fun _ => false) (new [])); setEqual (new []) (w (fun _ => true) (new []));
       setEqual (s_iota3 fuel 2 10 2) (w (m 2) (Ok s)); setEqual (s_iota3 fuel 1 10 2) (w (nt (m 2)) (Ok s));
       setEqual (s_iota3 fuel 3 10 3) (w (m 3) (Ok s)); setEqual (new [1; 2; 4; 5; 7; 8]) (w (nt (m 3)) (Ok s));
       setEqual (new [6]) (w (m 3) (w (m 2) (Ok s))); setEqual (new [6]) (w (m 2) (w (m 3) (Ok s)));
       setEqual (new [3; 9]) (w (m 3) (w (nt (m 2)) (Ok s))); setEqual (new [3; 9]) (w (nt (m 2)) (w (m 3) (Ok s)));
       setEqual (new [2; 4; 8]) (w (nt (m 3)) (w (m 2) (Ok s))); setEqual (new [2; 4; 8]) (w (m 2) (w (nt (m 3)) (Ok s)));
       setEqual (new [1; 5; 7]) (w (nt (m 3)) (w (nt (m 2)) (Ok s))); setEqual (new [1; 5; 7]) (w (nt (m 2)) (w (nt (m 3)) (Ok s)))].
(** set_test.go:420-454 ([TestSetMap], [TestSetMapShrunk], [TestSetMapLarge]). *)
Definition TestSetMap : res bool :=
  let mp l f := s <- new l ;; s_map s f in
  all [setEqual (new []) (mp [] (fun e => e * e)); setEqual (new [1; 4; 9; 16; 25]) (mp [1; 2; 3; 4; 5] (fun e => e * e));
       setEqual (new [0; 1; 3]) (mp [1; 2; 3; 6] (fun e => Z.quot e 2)); is_ Z.eqb 3 (rmap s_count (mp [1; 2; 3; 6] (fun e => Z.quot e 2)));
       setEqual (s_iota3 fuel 0 24 2) (mp (upto 0 12) (fun e => 2 * e)); setEqual (s_iota fuel 3) (mp (upto 0 12) (fun e => Z.quot e 4))].
(** set_test.go:456-487 ([TestSetReduce], [TestSetReduceHuge]). *)
Definition TestSetReduce : res bool :=
  let r2 n s op := s <- s ;; r <- s_reduce2 0 s op ;; Ok (match r with Some x => x =? n | None => false end) in
  all [r2 42 (new [42]) Z.add; r2 42 (new [42]) Z.mul; r2 12 (new [5; 7]) Z.add; r2 35 (new [5; 7]) Z.mul;
       r2 55 (s_iota2 fuel 1 11) Z.add; r2 720 (s_iota2 fuel 2 7) Z.mul; r2 (39 * 40 / 2) (s_iota fuel 40) Z.add].
(** set_test.go:489-579, 598-623: an operation on every pair of sets of a mask, for a few of the
    masks that the test lists or generates. *)
Definition masks : list N :=
  [0; 6; 0x210; 0xaaa; 91000]%N.
Definition testBinary (bitop : N -> N -> N) (setop : set Z -> set Z -> res (set Z)) : res bool :=
  allM (fun x => sx <- s_fromMask64 x ;; allM (fun y =>
    sy <- s_fromMask64 y ;; sxy <- s_fromMask64 (bitop x y) ;; r <- setop sx sy ;; e <- s_equal sxy r ;;
    Ok (e && (s_count r =? Z.of_nat (popcount 64 (bitop x y))))%bool) masks) masks.
Definition TestSetIntersection : res bool :=
  all [(a <- new [3; 5; 6; 7; 10; 11; 12] ;; b <- new [3; 5; 6; 8; 9; 10; 11; 15; 19] ;; setEqual (new [3; 5; 6; 10; 11]) (s_intersection a b));
       testBinary N.land s_intersection].
Definition TestSetUnion : res bool := testBinary N.lor s_union.
Definition TestSetDifference : res bool := testBinary N.ldiff s_difference.
Definition TestSetSymmetricDifference : res bool := testBinary N.lxor s_symmetricDifference.
(** set_test.go:581-596 [TestSetIntersectionLarge]. *)
Definition TestSetIntersectionLarge : res bool :=
  allM (fun i => a <- s_iota2 fuel (2 ^ i) (9 * 2 ^ i) ;; b <- s_iota fuel (9 * 2 ^ i) ;; c <- s_iota2 fuel (2 ^ i) (10 * 2 ^ i) ;;
    setEqual (Ok a) (s_intersection b c)) (upto 0 2).
(** set_test.go:625-646. *)
Definition setKey : Key (set Z) :=
  {| veq := fun a b => okOr false (s_equal a b); vhash := fun a seed => okOr 0%N (s_hash a seed) |}.
Definition TestSetPowerset : res bool :=
  l <- foldM (fun l s => s <- new s ;; Ok (l ++ [s])) [] [[]; [3]; [2]; [2; 3]; [1]; [1; 3]; [1; 2]; [1; 2; 3]] ;;
  expected <- s_new (K := setKey) l ;; s <- new [1; 2; 3] ;; actual <- s_powerset s ;; s_equal (K := setKey) expected actual.
(** combo_test.go:11-26: json.Marshal calls MarshalJSON of the elements. *)
Definition TestSetOfSet : res bool :=
  a <- new [10] ;; b <- new [11] ;; s <- s_new (K := setKey) [a; b] ;; l <- s_marshal s ;;
  l <- foldM (fun l x => x <- s_marshal x ;; Ok (l ++ [x])) [] l ;;
  Ok (listEq (listEq Z.eqb) [[10]; [11]] l || listEq (listEq Z.eqb) [[11]; [10]] l)%bool.
(** set_test.go:648-664. *)
Definition TestSetPowersetLarge : res bool :=
  allM (fun n => l <- foldM (fun l i => s <- s_fromMask64 (N.of_nat i) ;; Ok (l ++ [s])) [] (seq 0 (2 ^ n)) ;;
    expected <- s_new (K := setKey) l ;; s <- s_fromMask64 (2 ^ N.of_nat n - 1) ;; actual <- s_powerset s ;;
    s_equal (K := setKey) expected actual) (seq 0 4).
(** set_test.go:666-679. *)
Definition TestSetGroupBy : res bool :=
  s <- s_iota fuel 30 ;; g <- s_groupBy s (fun el => Z.rem el 7) ;;
  b <- foldM (fun b i => v <- s_iota3 fuel i 30 7 ;; mb_put b i v) (newMapBuilder (V := set Z) 0) (upto 0 7) ;;
  m_equal (KV := setKey) (fst (mb_finish b)) g.
(** set_test.go:681-689. *)
Definition TestSetRange : res bool :=
  s <- s_iota fuel 64 ;; l <- s_elements s ;;
  Ok (fold_left (fun m i => N.lor m (2 ^ Z.to_N i)) l 0%N =? 2 ^ 64 - 1)%N.
(** set_test.go:691-707. *)
Definition TestSetOrderedRange : res bool :=
  s <- s_iota fuel 10 ;;
  all [(o <- s_orderedRange Z.ltb s ;; is_ (listEq Z.eqb) (upto 0 10) (o_drain 20 Z.ltb o));
       (o <- s_orderedRange Z.gtb s ;; is_ (listEq Z.eqb) (rev (upto 0 10)) (o_drain 20 Z.gtb o))].
(** set_test.go:709-769 (the [_Big] tests). *)
Definition TestSetBig : res bool :=
  s <- new (upto 0 20) ;; s2 <- new (upto 10 30) ;;
  all [setEqual (Ok s) (s_where s (fun _ => true)); setEqual (new []) (s_where s (fun _ => false)); setEqual (Ok s) (s_intersection s s);
       setEqual (new []) (s_difference s s); setEqual (Ok s) (s_union s s); setEqual (new (upto 0 30)) (s_union s s2)].
(** set_extra_test.go:12-51. *)
Definition TestIota : res bool :=
  all [setEqual (new []) (s_iota fuel 0); setEqual (new [0]) (s_iota fuel 1); setEqual (new [0; 1; 2; 3; 4; 5]) (s_iota fuel 6);
       setEqual (new []) (s_iota2 fuel 6 6); setEqual (new [5]) (s_iota2 fuel 5 6); setEqual (new [1; 2; 3; 4; 5]) (s_iota2 fuel 1 6);
       setEqual (new []) (s_iota3 fuel 1 1 0); panics (s_iota3 fuel 1 2 0); setEqual (new [1; 3; 5]) (s_iota3 fuel 1 6 2);
       setEqual (new [1; 3; 5]) (s_iota3 fuel 1 7 2); setEqual (new [1; 3; 5]) (s_iota3 fuel 5 0 (-2)); setEqual (new [1; 3; 5]) (s_iota3 fuel 5 (-1) (-2))].
Definition TestNewSetFromMask64 : res bool :=
  all [setEqual (new []) (s_fromMask64 0); allM (fun i => setEqual (new [i]) (s_fromMask64 (2 ^ Z.to_N i))) ([0; 1; 2; 3; 4; 7; 8; 31; 32; 62; 63]);
       allM (fun i => setEqual (s_iota fuel i) (s_fromMask64 (2 ^ Z.to_N i - 1))) [0; 1; 2; 5; 17]].
(** set_extra_test.go:53-62 (the value that is encoded). *)
Definition TestSetMarshalJSON : res bool := s <- s_iota3 fuel 0 10 3 ;; l <- s_marshal s ;; Ok (sameElements [0; 3; 6; 9] l).
(** set_builder_test.go:12-31, 54-157. *)
Definition TestSetBuilder : res bool :=
  b <- sb_addAll (newSetBuilder 0) (upto 0 10) ;;
  let m := fst (sb_finish b) in
  all [Ok (s_count m =? 10); allM (s_has m) (upto 0 10); setEqual (new []) (Ok (fst (sb_finish (newSetBuilder (T := Z) 0))))].
Definition TestSetBuilderRemove : res bool :=
  b <- sb_addAll (newSetBuilder 0) (upto 0 15) ;; b <- foldM sb_remove b (upto 5 10) ;;
  let m := fst (sb_finish b) in
  all [Ok (s_count m =? 10); allM (fun i => h <- s_has m i ;; Ok (Bool.eqb h ((i <? 5) || (10 <=? i)))) (upto 0 15)].
Definition TestSetBuilderWithRedundantAddsAndRemoves : res bool :=
  let matches (b : setBuilder Z) (s : list Z) := allM (fun j => h <- sb_has b j ;; Ok (Bool.eqb h (mem s j))) (map (Z.mul 3) (upto 0 5)) in
  let step (add : bool) (st : setBuilder Z * list Z * bool) (i : Z) := let '(b, s, ok) := st in
    b' <- (if add then sb_add b i else sb_remove b i) ;;
    let s' := if add then i :: s else filter (fun x => negb (x =? i)) s in
    r <- matches b' s' ;; Ok (b', s', ok && r)%bool in
  st <- foldM (step true) (newSetBuilder 0, [], true) (upto 0 12) ;; st <- foldM (step false) st (upto 4 10) ;;
  st <- foldM (step true) st (upto 2 6) ;; st <- foldM (step false) st (upto 8 11) ;;
  let '(b, _, ok) := st in
  let m := fst (sb_finish b) in
  r <- allM (fun i => h <- s_has m i ;; Ok (Bool.eqb h ((i <? 6) || (11 <=? i)))) (upto 0 12) ;; Ok (ok && r)%bool.
(** branch_hash_test.go:21-46. *)
Definition TestBadHash : res bool :=
  b <- @sb_addAll E Z KBad (newSetBuilder 0) (map (Z.mul 10) (upto 0 30)) ;;
  all [allM (@sb_has E Z KBad b) (map (Z.mul 10) (upto 0 30)); allM (fun i => no (@sb_has E Z KBad b i)) (map (Z.mul 10) (upto 30 60))].
Definition TestRemoveCollider : res bool :=
  b <- @sb_addAll E Z KBad (newSetBuilder 0) [100; 200] ;; b <- @sb_remove E Z KBad b 100 ;; @sb_has E Z KBad b 200.
(** internal/pkg/tree/branch_test.go:11-41. *)
Definition TestBranchRemove : res bool :=
  let has b i := rmap isSome (b_get b i) in
  st <- foldM (fun (st : tree Z * bool) i => let (b, ok) := st in
    h <- has b i ;; b' <- b_add b i ;; h' <- has b' i ;; Ok (b', ok && negb h && h')%bool) (emptyTree, true) (upto 0 24) ;;
  st <- foldM (fun (st : tree Z * bool) i => let (b, ok) := st in
    h <- has b i ;; b' <- b_remove b i ;; h' <- has b' i ;; Ok (b', ok && h && negb h')%bool) st (upto 0 24) ;;
  Ok (snd st).
(** internal/pkg/tree/packer_test.go:10-54: the slots (packer.go's [EqualPacker] compares them; leaves are compared as they are). *)
Definition slots (p : N * list (option (node Z))) : N * list (list Z) := (fst p, map elemso (snd p)).
Definition TestPackedWith : res bool :=
  let p : N * list (option (node Z)) := emptyPacker in
  let same q q' := (N.eqb (fst (slots q)) (fst (slots q')) && listEq (listEq Z.eqb) (snd (slots q)) (snd (slots q')))%bool in
  Ok (forallb (fun i => same p (withChild p i None)) (seq 0 maxLeafLen) &&
      forallb (fun i => same p (withChild (withChild p i (Some (Leaf1 1))) i None)) (seq 0 maxLeafLen) &&
      (let a := withChild p 1 (Some (Leaf2 1 2)) in
       same (withChild (withChild (withChild a 3 (Some (Leaf2 10 20))) 3 None) 5 (Some (Leaf2 3 4)))
            (withChild (withChild a 3 None) 5 (Some (Leaf2 3 4)))))%bool.
(** internal/pkg/masker/masker_test.go:10-34. *)
Definition TestMasker : res bool :=
  let ns (a b s : nat) := filter (fun n => Nat.eqb (Nat.modulo n s) (Nat.modulo a s)) (seq a (b - a)) in
  Ok ((m_first 0 =? 0)%N &&
      forallb (fun a => forallb (fun b => negb (m_firstIsIn (N.of_nat a) (N.of_nat b)) && m_firstIsIn (N.of_nat a) (N.lor (N.of_nat b) 1)) (ns 0 16 2)) (ns 1 17 2) &&
      forallb (fun a => forallb (fun b => negb (m_firstIsIn (N.of_nat a) (N.of_nat b)) && m_firstIsIn (N.of_nat a) (N.lor (N.of_nat b) 10)) (ns 0 17 4)) (ns 2 17 4) &&
      negb (m_firstIsIn 8 0) && m_firstIsIn 8 8)%nat%bool.
End SetTests.

(** ** map_test.go, map_extra_test.go, map_builder_test.go *)
Section MapTests.
Context {E : Env}.
Notation mp := (gomap Z Z).
Definition newM (l : list (Z * Z)) : res mp := m_new (map (fun kv => mkKV (fst kv) (snd kv)) l).
Definition putM (m : res mp) (k v : Z) : res mp := m <- m ;; m_with m k v.
Definition dropM (m : res mp) (k : Z) : res mp := m <- m ;; m_without m k.
Definition dropAll (m : res mp) (ks : list Z) : res mp := fold_left dropM ks m.
(** testutil_test.go:86-103 [assertMapHas] and [assertMapNotHas]. *)
Definition hasM (m : mp) (k v : Z) : res bool :=
  o <- m_get m k ;; h <- m_has m k ;; Ok (match o with Some x => (x =? v) && h | None => false end)%bool.
Definition hasNotM (m : mp) (k : Z) : res bool :=
  o <- m_get m k ;; h <- m_has m k ;; Ok (match o with Some _ => false | None => negb h end).
Definition square (i : Z) : Z * Z := (i, i * i).

(** map_test.go:13-17. *)
Definition TestKeyValueString : res bool := Ok (String.eqb "1:2"%string (kv_string (mkKV 1 2))).
(** map_test.go:19-29. *)
Definition TestMapEmpty : res bool :=
  m <- putM (Ok m_empty) 1 2 ;; m' <- dropM (Ok m) 1 ;;
  all [Ok (m_isEmpty (@m_empty Z Z)); Ok (negb (m_isEmpty m)); Ok (m_isEmpty m'); panics (m_mustGet m' 1)].
(** map_test.go:31-42. *)
Definition mpKey : Key mp := {| veq := fun a b => okOr false (m_equal a b); vhash := fun a seed => okOr 0%N (m_hash a seed) |}.
Definition TestMap2 : res bool :=
  a <- newM [(1, 10); (2, 20)] ;; b <- newM [(2, 20); (1, 10)] ;;
  mb <- mb_put (KX := mpKey) (newMapBuilder (X := mp) (V := Z) 0) a 100 ;; mb <- mb_put (KX := mpKey) mb a 101 ;;
  all [m_equal a b; Ok (m_count (fst (mb_finish mb)) =? 1)].
(** map_test.go:44-71. *)
Definition TestMapWithWithout : res bool :=
  m <- fold_left (fun m i => putM m i (i * i)) (upto 0 15) (Ok m_empty) ;;
  m' <- dropAll (Ok m) (upto 5 10) ;;
  all [no (panics (m_mustGet m 14)); panics (m_mustGet m 15); Ok (m_count m =? 15); allM (fun i => is_ Z.eqb (i * i) (m_mustGet m i)) (upto 0 10);
       Ok (m_count m' =? 10); allM (fun i => if ((i <? 5) || (10 <=? i))%bool then hasM m' i (i * i) else hasNotM m' i) (upto 0 15)].
(** map_test.go:73-99. *)
Definition TestMapHasGet : res bool :=
  m <- newM [(0, 1)] ;; g <- newM [(0, 1); (1, 1); (2, 2); (3, 3); (4, 5)] ;;
  all [no (m_has (@m_empty Z Z) 0); m_has m 0; no (m_has m 1);
       allM (fun kv => is_ Z.eqb (snd kv) (m_mustGet g (fst kv))) [(0, 1); (1, 1); (2, 2); (3, 3); (4, 5)]].
(** map_test.go:101-141. *)
Definition TestMapRedundantWithWithout : res bool :=
  m <- fold_left (fun m i => putM m i (i * i)) (upto 0 18) (Ok m_empty) ;;
  m <- dropAll (Ok m) (concat (repeat (upto 5 13) 3)) ;;
  st <- foldM (fun (st : mp * bool) i => let (m, ok) := st in
          m' <- m_with m i (i * i * i) ;; h <- hasM m' i (i * i * i) ;; Ok (m', ok && h)%bool) (m, true) (upto 3 8) ;;
  m <- dropAll (Ok (fst st)) (concat (repeat (upto 10 15) 3)) ;;
  r <- allM (fun i => if i <? 3 then hasM m i (i * i) else if i <? 8 then hasM m i (i * i * i) else if i <? 15 then hasNotM m i
                      else hasM m i (i * i)) (upto 0 18) ;;
  Ok (snd st && r)%bool.
(** map_test.go:143-157. *)
Definition TestMapNewMapFromGoMap : res bool :=
  fm <- m_fromGoMap (map square (upto 0 25)) ;; s <- s_iota fuel 25 ;; expected <- m_fromKeys s (fun k => k * k) ;; m_equal fm expected.
(** map_test.go:159-202 ([TestMapGetElse], [TestMapGetElseFunc]). *)
Definition TestMapGetElse : res bool :=
  let m0 := Ok m_empty in let m1 := putM m0 1 2 in let m2 := putM m1 3 4 in let m3 := dropM m2 1 in let m4 := dropM m3 3 in
  let t m x y := m <- m ;;
    all [is_ Z.eqb x (m_getElse m 1 10); is_ Z.eqb y (m_getElse m 3 30);
         is_ Z.eqb x (m_getElseFunc m 1 (fun _ => Ok 10)); is_ Z.eqb y (m_getElseFunc m 3 (fun _ => Ok 30))] in
  all [t m0 10 30; t m1 2 30; t m2 2 4; t m3 10 4; t m4 10 30].
(** map_test.go:204-232 ([TestMapKeys], [TestMapValues]). *)
Definition TestMapKeysValues : res bool :=
  let m0 := Ok m_empty in let m1 := putM m0 1 2 in let m2 := putM m1 3 4 in let m3 := dropM m2 1 in let m4 := dropM m3 3 in
  let t m ks vs := m <- m ;; all [setEqual (s_new ks) (m_keys m); setEqual (s_new vs) (m_values m)] in
  all [t m0 [] []; t m1 [1] [2]; t m2 [1; 3] [2; 4]; t m3 [3] [4]; t m4 [] []].
(** map_test.go:234-262. *)
Definition TestMapProject : res bool :=
  let m0 := Ok m_empty in let m1 := putM m0 1 2 in let m2 := putM m1 3 4 in let m3 := dropM m2 1 in let m4 := dropM m3 3 in
  let t m a b ab := m <- m ;;
    all [mapEqual (newM []) (m_project m []); mapEqual (newM a) (m_project m [1]); mapEqual (newM b) (m_project m [3]);
         mapEqual (newM ab) (m_project m [1; 3])] in
  all [t m0 [] [] []; t m1 [(1, 2)] [] [(1, 2)]; t m2 [(1, 2)] [(3, 4)] [(1, 2); (3, 4)]; t m3 [] [(3, 4)] [(3, 4)]; t m4 [] [] []].
(** map_test.go:264-288 ([TestMapWhere], [TestMapMap]). *)
Definition TestMapWhereMap : res bool :=
  m <- newM [(1, 2); (3, 4); (4, 5); (6, 7)] ;;
  all [mapEqual (newM []) (m_where m (fun _ _ => false)); mapEqual (Ok m) (m_where m (fun _ _ => true));
       mapEqual (newM [(4, 5); (6, 7)]) (m_where m (fun k _ => Z.rem k 2 =? 0));
       mapEqual (newM [(1, 2); (3, 4)]) (m_where m (fun _ v => Z.rem v 2 =? 0));
       mapEqual (newM [(1, 3); (3, 7); (4, 9); (6, 13)]) (m_map m (fun k v => k + v))].
(** map_test.go:290-329. *)
Definition TestMapUpdate : res bool :=
  m <- newM [(3, 4); (4, 5); (1, 2)] ;; n <- newM [(3, 4); (4, 7); (6, 7)] ;;
  i2 <- s_iota fuel 2 ;; lotsa <- s_powerset i2 ;; subsets <- s_elements lotsa ;;
  all [mapEqual (newM [(1, 2); (3, 4); (4, 7); (6, 7)]) (m_update m n);
       allM (fun s => a <- m_fromKeys s (fun k => k) ;; allM (fun u =>
         b <- m_fromKeys u (fun k => 100 + k) ;; su <- s_union s u ;; uE <- s_elements u ;;
         mapEqual (m_fromKeys su (fun k => if mem uE k then 100 + k else k)) (m_update a b)) subsets) subsets].
(** map_test.go:331-352. That the hashes differ when the maps do holds for the hash function above. *)
Definition TestMapHashAndEqual : res bool :=
  maps <- foldM (fun l m => m <- m ;; Ok (l ++ [m])) [] (map newM
    [[]; [(1, 2)]; [(1, 3)]; [(3, 4)]; [(3, 5)]; [(1, 2); (3, 4)]; [(1, 2); (3, 5)]; [(1, 3); (3, 4)]; [(1, 3); (3, 5)]]) ;;
  let im := List.combine (upto 0 9) maps in
  allM (fun ia => allM (fun jb => e <- m_equal (snd ia) (snd jb) ;; h <- m_hash (snd ia) 0 ;; h' <- m_hash (snd jb) 0 ;;
    Ok (Bool.eqb e (fst ia =? fst jb) && Bool.eqb (h =? h')%N (fst ia =? fst jb))%bool) im) im.
(** map_test.go:354-363. *)
Definition TestMapString : res bool :=
  m1 <- newM [(1, 2)] ;; m2 <- putM (Ok m1) 3 4 ;; t <- m_string m2 ;;
  all [is_ String.eqb "()"%string (m_string (@m_empty Z Z)); is_ String.eqb "(1: 2)"%string (m_string m1);
       Ok ((t =? "(1: 2, 3: 4)") || (t =? "(3: 4, 1: 2)"))%string%bool].
(** map_test.go:365-376. *)
Definition sameEntries (l l' : list (Z * Z)) : bool :=
  let inl l x := existsb (fun y => (fst x =? fst y) && (snd x =? snd y))%bool l in
  (Nat.eqb (length l) (length l') && forallb (inl l) l' && forallb (inl l') l)%bool.
Definition TestMapRange : res bool :=
  m <- newM [(1, 2); (3, 4); (4, 5); (6, 7)] ;; is_ sameEntries [(1, 2); (3, 4); (4, 5); (6, 7)] (m_entries m).
(** map_test.go:378-399. *)
Definition TestMapMerge : res bool :=
  m <- newM [(1, 1); (2, 2); (3, 3)] ;; n <- newM [(1, 2); (2, 3); (4, 4)] ;; ne <- newM [(1, 2); (2, 3)] ;;
  all [mapEqual (newM [(1, 4); (2, 7); (3, 3); (4, 4)]) (m_merge m n (fun k a b => k + a + b));
       mapEqual (Ok ne) (m_merge m_empty ne (fun _ a _ => a)); mapEqual (Ok ne) (m_merge ne m_empty (fun _ a _ => a))].
(** map_test.go:401-433. *)
Definition TestMapToGoMap : res bool :=
  m <- newM [(1, 1); (2, 2); (3, 3)] ;; big <- newM (map square (upto 0 30)) ;;
  all [is_ sameEntries [] (m_toGoMap Z.eqb (@m_empty Z Z)); is_ sameEntries [(1, 1); (2, 2); (3, 3)] (m_toGoMap Z.eqb m);
       is_ sameEntries (map square (upto 0 30)) (m_toGoMap Z.eqb big)].
(** map_extra_test.go:11-27: what is handed to json.Marshal. *)
Definition TestMapMarshalJSON : res bool :=
  m <- newM [(97, 2); (98, 4); (99, 2)] ;; n <- newM [(1, 2); (3, 4); (4, 2)] ;;
  all [is_ sameEntries [(97, 2); (98, 4); (99, 2)] (m_marshalObject Z.eqb m); is_ sameEntries [(1, 2); (3, 4); (4, 2)] (m_marshalArray n)].
(** combo_test.go:28-43. *)
Definition TestSetOfMap : res bool :=
  a <- newM [(97, 10)] ;; b <- newM [(97, 11)] ;; s <- s_new (K := mpKey) [a; b] ;; l <- s_marshal s ;;
  l <- foldM (fun l x => x <- m_marshalObject Z.eqb x ;; Ok (l ++ [x])) [] l ;;
  Ok (listEq sameEntries [[(97, 10)]; [(97, 11)]] l || listEq sameEntries [[(97, 11)]; [(97, 10)]] l)%bool.
(** map_builder_test.go:10-146. *)
Definition TestMapBuilder : res bool :=
  b <- mb_putAll (newMapBuilder 0) (map square (upto 0 10)) ;; 
  let m := fst (mb_finish b) in
  all [Ok (m_count m =? 10); allM (fun i => hasM m i (i * i)) (upto 0 10); mapEqual (newM []) (Ok (fst (mb_finish (newMapBuilder 0))))].
Definition TestMapBuilderSimple : res bool :=
  b1 <- mb_put (newMapBuilder (X := Z) (V := Z) 0) 0 0 ;; b2 <- mb_remove b1 0 ;; b3 <- mb_putAll b2 [(0, 0); (1, 1); (2, 2)] ;;
  b4 <- mb_putAll b3 [(3, 3); (4, 4); (5, 5)] ;; b5 <- mb_remove b4 5 ;;
  Ok ((mb_count b1 =? 1) && (mb_count b2 =? 0) && (mb_count b3 =? 3) && (mb_count b4 =? 6) && (mb_count b5 =? 5))%bool.
Definition TestMapBuilderRemove : res bool :=
  b <- mb_putAll (newMapBuilder 0) (map square (upto 0 15)) ;;
  st <- foldM (fun (st : mapBuilder Z Z * bool) i => let (b, ok) := st in
          b' <- mb_remove b i ;; o <- mb_get b' i ;; Ok (b', ok && negb (isSome o))%bool) (b, true) (upto 5 10) ;;
  let m := fst (mb_finish (fst st)) in
  all [Ok (snd st); Ok (m_count m =? 10); allM (fun i => if ((i <? 5) || (10 <=? i))%bool then hasM m i (i * i) else hasNotM m i) (upto 0 15)].
Definition TestMapBuilderWithRedundantAddsAndRemoves : res bool :=
  let matches (b : mapBuilder Z Z) (s : list Z) := allM (fun j => o <- mb_get b j ;; Ok (Bool.eqb (isSome o) (mem s j))) (upto 0 11) in
  let put (f : Z -> Z) (st : mapBuilder Z Z * list Z * bool) (i : Z) := let '(b, s, ok) := st in
    b' <- mb_put b i (f i) ;; r <- matches b' (i :: s) ;; Ok (b', i :: s, ok && r)%bool in
  let del (st : mapBuilder Z Z * list Z * bool) (i : Z) := let '(b, s, ok) := st in
    b' <- mb_remove b i ;; let s' := filter (fun x => negb (x =? i)) s in r <- matches b' s' ;; Ok (b', s', ok && r)%bool in
  st <- foldM (put (fun i => i * i)) (newMapBuilder 0, [], true) (upto 0 11) ;; st <- foldM del st (upto 3 8) ;;
  st <- foldM (put (fun i => i * i * i)) st (upto 2 5) ;; st <- foldM del st (upto 6 9) ;;
  let '(b, _, ok) := st in
  let m := fst (mb_finish b) in
  r <- allM (fun i => if i <? 2 then hasM m i (i * i) else if i <? 5 then hasM m i (i * i * i) else if i <? 9 then hasNotM m i
                      else hasM m i (i * i)) (upto 0 11) ;;
  Ok (ok && r)%bool.
End MapTests.

(** ** intset_test.go *)
Section IntTests.
Context {E : Env}.
Definition tInt : intTy := mkIT true 64.
Definition hInt : Z -> N -> N := @vhash Z KI.
Notation newI := (is_new hInt (fun l => rev l)).
(** intset_test.go:281-304 [generateIntArrayAndSet]: growing steps. The test's integers end at the smallest int64 (the
    conversion of a float that does not fit, on amd64), which is a multiple of 64. *)
Definition arrI : list Z := [1; 2; 3; 5; 8; 13; 62; 63; 64; 65; 127; 128; 1000; 1023; 1024; 70000; 70001; 2 ^ 40; 2 ^ 40 + 7; 2 ^ 62; 2 ^ 63 - 1; - 2 ^ 63].
Definition half1 : list Z := firstn 11 arrI.
Definition half2 : list Z := skipn 11 arrI.
(** intset_test.go:20-49. *)
Definition TestIntSetNew : res bool :=
  s1 <- newI [1] ;; s5 <- newI [1; 2; 3; 4; 5] ;; s0 <- newI [] ;;
  all [Ok (is_isEmpty is_empty); no (is_has hInt is_empty 0); Ok (is_isEmpty s0); Ok (negb (is_isEmpty s1)); is_has hInt s1 1; Ok (negb (is_isEmpty s5))].
(** intset_test.go:51-107 ([TestIntSetNewHuge], [TestIntSetIter], [TestIntSetIterLarge], [TestIntSetHas]). *)
Definition TestIntSetIter : res bool :=
  s1 <- newI [1] ;; l1 <- is_elements tInt s1 ;; s <- newI arrI ;; l <- is_elements tInt s ;; s2 <- newI (rev arrI) ;;
  all [Ok (is_count s1 =? Z.of_nat (length l1)); allM (is_has hInt s) arrI; no (is_has hInt s (-1)); is_equal hInt s s2;
       Ok (sameElements arrI l && Nat.eqb (length arrI) (length l))%bool].
(** intset_test.go:109-131. *)
Definition TestIntSetWith : res bool :=
  s <- newI half1 ;; s' <- foldM (is_with hInt) s half2 ;;
  all [allM (fun i => no (is_has hInt s i)) half2; allM (is_has hInt s') half2; Ok (is_count s' =? Z.of_nat (length arrI))].
(** intset_test.go:133-157. *)
Definition TestIntSetWithout : res bool :=
  s <- newI arrI ;; wo <- foldM (is_without hInt) s half1 ;;
  all [Ok (is_count wo =? Z.of_nat (length half2)); allM (fun i => no (is_has hInt wo i)) half1; allM (is_has hInt wo) half2].
(** intset_test.go:159-181. *)
Definition TestIntSetIntersection : res bool :=
  full <- newI arrI ;; q1 <- newI (firstn 5 arrI) ;; d2 <- newI (firstn 7 (skipn 4 arrI)) ;; q3 <- newI (firstn 5 (skipn 11 arrI)) ;;
  i1 <- is_intersection hInt full q1 ;; i2 <- is_intersection hInt q1 q3 ;; i3 <- is_intersection hInt d2 q1 ;; l3 <- is_elements tInt i3 ;;
  all [is_equal hInt i1 q1; Ok (is_count i1 =? is_count q1); Ok (is_isEmpty i2); Ok (is_count i2 =? 0);
       allM (fun i => all [is_has hInt d2 i; is_has hInt q1 i]) l3; Ok (is_count i3 =? 1)].
(** intset_test.go:183-210. *)
Definition TestIntSetUnion : res bool :=
  full <- newI arrI ;; s <- newI half1 ;; u <- is_union hInt s full ;; u' <- is_union hInt full s ;;
  all [allM (is_has hInt u) arrI; Ok (is_count u =? Z.of_nat (length arrI)); allM (is_has hInt u') arrI; Ok (is_count u' =? Z.of_nat (length arrI))].
(** intset_test.go:212-220. *)
Definition TestIntSetIsSubsetOf : res bool :=
  full <- newI arrI ;; e <- newI [] ;; s <- newI half1 ;; t <- newI (skipn 7 arrI) ;;
  all [is_isSubsetOf hInt e full; is_isSubsetOf hInt full full; is_isSubsetOf hInt s full; no (is_isSubsetOf hInt s t)].
(** intset_test.go:222-248. *)
Definition TestIntSetWhere : res bool :=
  full <- newI arrI ;; evens <- newI (filter Z.even arrI) ;; odds <- newI (filter Z.odd arrI) ;;
  we <- is_where tInt hInt full Z.even ;; wo <- is_where tInt hInt full Z.odd ;; w0 <- is_where tInt hInt is_empty Z.even ;;
  all [is_equal hInt we evens; Ok (is_count evens =? is_count we); is_equal hInt wo odds; Ok (is_count odds =? is_count wo); is_equal hInt w0 is_empty].
(** intset_test.go:250-265. *)
Definition TestIntSetMap : res bool :=
  let subtract i := it_wrap tInt (i - 1) in
  full <- newI arrI ;; mapped <- newI (map subtract arrI) ;; m <- is_map tInt hInt (fun l => l) full subtract ;; m0 <- is_map tInt hInt (fun l => l) is_empty subtract ;;
  all [is_equal hInt mapped m; is_equal hInt is_empty m0].
(** intset_test.go:267-279. *)
Definition TestSetOfIntSet : res bool :=
  let kI := {| veq := fun a b => okOr false (is_equal hInt a b); vhash := fun a seed => okOr 0%N (is_hash tInt hInt a seed) |} in
  a <- newI [1; 2; 3] ;; b <- newI [4; 5; 6] ;; s <- s_new (K := kI) [a; b] ;; Ok (s_count s =? 2).
End IntTests.

(** ** pkg/rel/relation_test.go *)
Section RelTests.
Context {E : Env}.
#[local] Existing Instance valKey.
#[local] Existing Instance valRel.
Notation relation := (set (gomap Z val)).
(** The attributes. *)
Definition ax : Z := 120. Definition ay : Z := 121. Definition az : Z := 122.
Definition aa : Z := 97. Definition ac : Z := 99. Definition aaa : Z := 9797. Definition acc : Z := 9999.
Definition newR (header : list Z) (rows : list (list Z)) : res relation := r_new header (map (map VInt) rows).
(** relation_test.go:13-30. *)
Definition TestJoinSimple : res bool :=
  a <- newR [ax; ay] [[1; 2]] ;; b <- newR [ay; az] [[2; 3]] ;; setEqual (newR [ax; ay; az] [[1; 2; 3]]) (r_join [a; b]).
(** relation_test.go:32-142: pairs of relations of one or two rows over the values 1 and 2 (the test: all of up to three rows over 1 to 3). *)
Definition rels12 : list (list (list Z)) := [[[1; 1]]; [[1; 2]]; [[1; 1]; [2; 1]]; [[1; 2]; [2; 1]]].
Definition TestJoinExhaustive : res bool :=
  allM (fun ra => a <- newR [ax; ay] ra ;; allM (fun rb => b <- newR [ay; az] rb ;;
    let rc := flat_map (fun p => flat_map (fun q => match p, q with
                | [x; y], [y'; z] => if y =? y' then [[x; y; z]] else []
                | _, _ => [] end) rb) ra in
    setEqual (newR [ax; ay; az] rc) (r_join [a; b])) rels12) rels12.
(** relation_test.go:144-173. *)
Definition shared : res relation :=
  ra <- newR [aa] [[10]; [11]] ;; rc <- newR [ac] [[1]; [3]] ;; r_new [aaa; acc] [[toAny ra; toAny rc]].
Definition nestOne (s : relation) (name attr : Z) : res relation :=
  s1 <- s_new [attr] ;; m <- m_new [mkKV name s1] ;; r_nest s m.
Definition TestNest : res bool :=
  ca <- newR [ac; aa] [[1; 10]; [1; 11]; [3; 11]; [3; 10]] ;; sharing <- nestOne ca aaa aa ;; sharing <- nestOne sharing acc ac ;;
  sharing <- s_where sharing (fun t => match m_mustGet t acc with
               | Ok v => match fromAny v with Some r => 1 <? s_count r | None => false end | _ => false end) ;;
  setEqual shared (Ok sharing).
(** relation_test.go:175-206. *)
Definition TestUnnest : res bool :=
  sharing <- shared ;;
  let expected := newR [ac; aa] [[1; 10]; [1; 11]; [3; 11]; [3; 10]] in
  all [setEqual expected (s <- r_unnest sharing acc ;; r_unnest s aaa); setEqual expected (s <- r_unnest sharing aaa ;; r_unnest s acc)].
End RelTests.

(** ** lazy/*_test.go *)

(** Lazy sets of integers as values of type any, coded as integers from 1000 on. *)
#[local] Instance boxes {E : Env} : Boxes Z := {|
  box := fun s => 1000 + fold_left (fun n x => n + 2 ^ x) (okOr [] (s_elements s)) 0;
  emptyBox := 1000;
  unbox := fun _ => None;
|}.
(** lazy/testutil_test.go:90-99 [extractInt]: a lazy set counts as its number of elements. *)
Definition extractInt (x : Z) : Z := if x <? 1000 then x else Z.of_nat (popcount 64 (Z.to_N (x - 1000))).
Section LazyTests.
Context {E : Env}.
Notation P := (prog Z).
Definition alone (m : P bool) : res bool := r <- exec m [] ;; Ok (fst r).
Fixpoint allP {A} (f : A -> P bool) (l : list A) : P bool :=
  match l with
  | [] => Ret true
  | a :: l => b <~ f a ;; if (b : bool) then allP f l else Ret false
  end.
Definition every (l : list (P bool)) : P bool := allP (fun m => m) l.
Definition isP {A} (eq : A -> A -> bool) (a : A) (m : P A) : P bool := x <~ m ;; Ret (eq a x).
Definition notP (m : P bool) : P bool := b <~ m ;; Ret (negb b).
Definition optEq {A} (eq : A -> A -> bool) (o o' : option A) : bool := match o, o' with Some a, Some b => eq a b | None, None => true | _, _ => false end.
Definition fz (r : res (set Z)) : P (lset Z) := s <~ lift r ;; Ret (LFrozen s).
(** lazy/testutil_test.go:21-75: the Fast assertions. *)
Definition fastEmptyIs (b : bool) (m : P (lset Z)) : P bool := e <~ m ;; isP (optEq Bool.eqb) (Some b) (l_fastIsEmpty e).
Definition fastCountIs (n : Z) (e : lset Z) : P bool := isP (optEq Z.eqb) (Some n) (l_fastCount e).
Definition fastCountUpToIs (n : Z) (e : lset Z) (limit : Z) : P bool := isP (optEq Z.eqb) (Some n) (l_fastCountUpTo e limit).
Definition fastHasIs (b : bool) (e : lset Z) (x : Z) : P bool := isP (optEq Bool.eqb) (Some b) (l_fastHas e x).
Definition equalP (a b : P (lset Z)) : P bool := x <~ a ;; y <~ b ;; l_equalSet x y.
(** lazy/testutil_test.go:77-88 [assertRangeEmits]. *)
Definition rangeEmits (expected : set Z) (e : lset Z) : P bool :=
  l <~ l_toList e ;; s <~ lift (s_new l) ;; b <~ lift (s_equal expected s) ;; Ret (b && (s_count s =? Z.of_nat (length l)))%bool.
(** lazy/testutil_test.go:101-183 [assertSetOps]. *)
Definition setOps (golden : set Z) (s : lset Z) : P bool :=
  let count := s_count golden in
  let f := LFrozen golden in
  g42 <~ lift (s_with golden 42) ;;
  f42 <~ l_with f 42 ;;
  every [
    isP Bool.eqb (s_isEmpty golden) (l_isEmpty s); isP Z.eqb count (l_count s); l_equalSet f s; l_equalSet s f;
    notP (l_equalSet (LFrozen g42) s); notP (l_equalSet s (LFrozen g42)); isP Z.eqb 0 (l_countUpTo s 0);
    (if 0 <? count then isP Z.eqb (count - 1) (l_countUpTo s (count - 1)) else Ret true);
    isP Z.eqb count (l_countUpTo s count); isP Z.eqb count (l_countUpTo s (count + 1));
    (b <~ lift (s_equal golden s_empty) ;; isP Bool.eqb b (l_equal s (LFrozen s_empty)));
    (b <~ lift (s_equal golden s_empty) ;; isP Bool.eqb b (l_equalSet s (LFrozen s_empty)));
    (h <~ l_hash s 0 ;; Ret (negb (h =? 0)%N));
    allP (fun i => b <~ lift (s_has golden i) ;; isP Bool.eqb b (l_has s i)) (upto 0 10);
    l_isSubsetOf s f; l_isSubsetOf s f42; l_isSubsetOf f s; notP (l_isSubsetOf f42 s); rangeEmits golden s;
    allP (fun p => equalP (fz (s_where golden p)) (l_where s p))
      [(fun _ => false); (fun _ => true); (fun i => Z.rem (extractInt i) 2 =? 0); (fun i => extractInt i <? 3)];
    (e <~ l_with s 2 ;; notP (l_isEmpty e));
    equalP (fz (s_without golden 2)) (l_without s 2);
    equalP (fz (g <- s_with golden 2 ;; s_without g 2)) (e <~ l_with s 2 ;; l_without e 2);
    equalP (fz (s_without golden 42)) (l_without s 42);
    equalP (fz (s_without g42 42)) (e <~ l_with s 42 ;; l_without e 42);
    allP (fun m => equalP (fz (s_map golden m)) (l_map s m))
      [(fun _ => 42); (fun i => i); (fun i => 2 * extractInt i); (fun i => Z.quot (extractInt i) 2)];
    allP (fun l => u <~ lift (s_new l) ;; every [
      equalP (fz (s_union golden u)) (l_union s (LFrozen u)); equalP (fz (s_intersection golden u)) (l_intersection s (LFrozen u));
      equalP (fz (s_difference golden u)) (l_difference s (LFrozen u));
      equalP (fz (s_symmetricDifference golden u)) (l_symmetricDifference s (LFrozen u))]) [[]; [1; 2; 3]; [1; 2; 3; 4]; [4; 5]];
    (e <~ l_powerset s ;; isP Z.eqb (2 ^ count) (l_count e)) ].
(** The assertions that lazy/set_empty_test.go:10-30 and lazy/set_frozen_test.go:10-31 have in common. *)
Definition emptyOps (s : lset Z) : P bool :=
  u <~ fz (s_new [1; 2; 3]) ;;
  every [
    setOps s_empty s; fastEmptyIs true (Ret s); fastCountIs 0 s; fastCountUpToIs 0 s 0; fastCountUpToIs 0 s 1; fastHasIs false s 3;
    fastEmptyIs true (l_where s (fun _ => true)); fastEmptyIs false (l_with s 2); fastEmptyIs true (l_without s 2);
    fastEmptyIs true (e <~ l_with s 2 ;; l_without e 2); fastEmptyIs true (l_map s (fun _ => 42)); fastEmptyIs true (l_intersection s u) ].
Definition TestLazySetEmpty : res bool := alone (every [emptyOps LEmpty; fastEmptyIs false (l_powerset LEmpty)]).
Definition TestLazySetFrozenEmpty : res bool :=
  let s := LFrozen s_empty in alone (every [emptyOps s; fastEmptyIs true (l_powerset s)]).
(** lazy/set_frozen_test.go:33-52. *)
Definition TestLazySetFrozenSmall : res bool := alone (
  f <~ lift (s_new [1; 2; 3]) ;;
  let s := LFrozen f in
  let del e x := e <~ e ;; l_without e x in
  every [
    setOps f s; fastEmptyIs false (Ret s); fastCountIs 3 s; fastCountUpToIs 2 s 2; fastCountUpToIs 3 s 3; fastCountUpToIs 3 s 4;
    fastHasIs true s 3; fastHasIs false s 4; fastEmptyIs false (l_with s 2); fastEmptyIs false (del (del (del (Ret s) 1) 2) 4);
    fastEmptyIs true (del (del (del (Ret s) 1) 2) 3); fastEmptyIs false (l_map s (fun _ => 42)) ]).
(** lazy/set_powerset_test.go:10-28. *)
Definition TestLazySetPowerset : res bool := alone (
  f <~ lift (s_new [1; 2]) ;;
  let s := l_powerset (LFrozen f) in
  golden <~ lift (p <- s_powerset f ;; s_map p box) ;;
  every [
    (e <~ s ;; setOps golden e); fastEmptyIs false s; (e <~ s ;; fastCountIs 4 e); (e <~ s ;; fastCountUpToIs 3 e 3);
    (e <~ s ;; fastCountUpToIs 4 e 4); (e <~ s ;; fastCountUpToIs 4 e 5) ]).
(** lazy/set_where_test.go:11-41. *)
Definition TestLazySetWhereEmpty : res bool := alone (
  let f := LFrozen s_empty in
  one <~ fz (s_new [1]) ;;
  every [
    l_isEmpty f; isP Z.eqb 0 (l_count f); isP Z.eqb 0 (l_countUpTo f 0); isP Z.eqb 0 (l_countUpTo f 1); l_equal f (LFrozen s_empty);
    l_equalSet f (LFrozen s_empty); notP (l_equalSet f one); (h <~ l_hash f 0 ;; Ret (negb (h =? 0)%N)); notP (l_has f 3);
    l_isSubsetOf f (LFrozen s_empty); (it <~ l_range f ;; '(b, _) <~ l_next it ;; Ret (negb b));
    (e <~ l_union f (LFrozen s_empty) ;; l_isEmpty e); fastEmptyIs true (l_powerset f) ]).
(** lazy/set_test.go:90-126, first round: every operation on some subsets of {0, 1, 2}. Both sides are lazy, as in the test; here
    the left one is also compared with the operation on frozen sets. *)
Definition TestLazySet : res bool :=
  allM (fun i => p <- s_fromMask64 i ;; alone (
    let e := LFrozen p in
    every [
      allP (fun f => every [equalP (l_where e f) (l_where e f); equalP (l_where e f) (fz (s_where p f))])
        [(fun _ => false); (fun _ => true); (fun i => i <? 2); (fun i => Z.rem i 2 =? 0)];
      allP (fun f => every [equalP (l_map e f) (l_map e f); equalP (l_map e f) (fz (s_map p f))])
        [(fun _ => 42); (fun i => i * 2); (fun i => Z.quot i 2); (fun i => Z.rem i 2)];
      allP (fun j => q <~ lift (s_fromMask64 j) ;; let u := LFrozen q in every [
        equalP (l_intersection e u) (l_intersection e u); equalP (l_intersection e u) (fz (s_intersection p q));
        equalP (l_union e u) (l_union e u); equalP (l_union e u) (fz (s_union p q));
        equalP (l_difference e u) (l_difference e u); equalP (l_difference e u) (fz (s_difference p q));
        equalP (l_symmetricDifference e u) (l_symmetricDifference e u); equalP (l_symmetricDifference e u) (fz (s_symmetricDifference p q))])
        [0; 3; 6]%N;
      equalP (l_powerset e) (l_powerset e) ])) [0; 3; 6]%N.
End LazyTests.

(** ** Sets of values of mixed types *)
Section DynTests.
Context {E : Env}.
(** Basic type 0 is int, 1 is string. *)
Definition bhI (k : nat) (z : Z) (seed : N) : N := vhash (z + 1000 * Z.of_nat k) seed.
Notation KD n t := (dynKey bhI n t).
Notation int z := (DBasic 0 z).
Notation str z := (DBasic 1 z).
(** set_test.go:224-248. *)
Definition nested (x : Z) : res dyn :=
  m1 <- m_with (KX := KD 1%nat (GBasic 1)) m_empty (str 99) (int x) ;;
  s1 <- s_new (K := KD 2%nat (GMap (GBasic 1) (GBasic 0))) [DMap (GBasic 1) (GBasic 0) m1] ;;
  m2 <- m_with (KX := KD 3%nat (GBasic 1)) m_empty (str 9999) (DSet (GMap (GBasic 1) (GBasic 0)) s1) ;;
  Ok (DMap (GBasic 1) (GSet (GMap (GBasic 1) (GBasic 0))) m2).
Definition TestSetHash : res bool :=
  n1 <- nested 1 ;; n2 <- nested 2 ;;
  sets <- foldM (fun l s => s <- s_new (K := KD 5%nat GAny) s ;; Ok (l ++ [s])) []
    (map (map (fun z => int z)) [[]; [1; 2]; [1; 3]; [3; 4]; [3; 5]; [1; 3; 4]; [1; 3; 5]; [1; 2; 3; 4]; [1; 2; 3; 5]] ++ [[n1]; [n2]]) ;;
  s42 <- s_new (K := KD 5%nat GAny) [int 42] ;;
  let is := List.combine (upto 0 11) sets in
  allM (fun ia => e42 <- s_equal (K := KD 5%nat GAny) (snd ia) s42 ;;
    r <- allM (fun jb => e <- s_equal (K := KD 5%nat GAny) (snd ia) (snd jb) ;;
           h <- s_hash (K := KD 5%nat GAny) (snd ia) 0 ;; h' <- s_hash (K := KD 5%nat GAny) (snd jb) 0 ;;
           Ok (Bool.eqb e (fst ia =? fst jb) && Bool.eqb (h =? h')%N (fst ia =? fst jb))%bool) is ;;
    Ok (r && negb e42)%bool) is.
End DynTests.

(** ** The runs *)

Example TestSetEmpty_8 : @TestSetEmpty E0 = Ok true. Proof. vm_compute. reflexivity. Qed.
Example TestSetEmpty_4 : @TestSetEmpty E4 = Ok true. Proof. vm_compute. reflexivity. Qed.
Example TestSetNewSet_8 : @TestSetNewSet E0 = Ok true. Proof. vm_compute. reflexivity. Qed.
Example TestSetNewSet_4 : @TestSetNewSet E4 = Ok true. Proof. vm_compute. reflexivity. Qed.
Example TestSetNew2_8 : @TestSetNew2 E0 = Ok true. Proof. vm_compute. reflexivity. Qed.
Example TestSetNew2_4 : @TestSetNew2 E4 = Ok true. Proof. vm_compute. reflexivity. Qed.
Example TestSetWith_8 : @TestSetWith E0 = Ok true. Proof. vm_compute. reflexivity. Qed.
Example TestSetWith_4 : @TestSetWith E4 = Ok true. Proof. vm_compute. reflexivity. Qed.
Example TestSetWithout_8 : @TestSetWithout E0 = Ok true. Proof. vm_compute. reflexivity. Qed.
Example TestSetWithout_4 : @TestSetWithout E4 = Ok true. Proof. vm_compute. reflexivity. Qed.
Example TestSetAny_8 : @TestSetAny E0 = Ok true. Proof. vm_compute. reflexivity. Qed.
Example TestSetAny_4 : @TestSetAny E4 = Ok true. Proof. vm_compute. reflexivity. Qed.
Example TestSetAnyN_8 : @TestSetAnyN E0 = Ok true. Proof. vm_compute. reflexivity. Qed.
Example TestSetAnyN_4 : @TestSetAnyN E4 = Ok true. Proof. vm_compute. reflexivity. Qed.
Example TestSetOrderedElements_8 : @TestSetOrderedElements E0 = Ok true. Proof. vm_compute. reflexivity. Qed.
Example TestSetOrderedElements_4 : @TestSetOrderedElements E4 = Ok true. Proof. vm_compute. reflexivity. Qed.
Example TestSetEqual_8 : @TestSetEqual E0 = Ok true. Proof. vm_compute. reflexivity. Qed.
Example TestSetEqual_4 : @TestSetEqual E4 = Ok true. Proof. vm_compute. reflexivity. Qed.
Example TestSetFirst_8 : @TestSetFirst E0 = Ok true. Proof. vm_compute. reflexivity. Qed.
Example TestSetFirst_4 : @TestSetFirst E4 = Ok true. Proof. vm_compute. reflexivity. Qed.
Example TestSetFirstN_8 : @TestSetFirstN E0 = Ok true. Proof. vm_compute. reflexivity. Qed.
Example TestSetFirstN_4 : @TestSetFirstN E4 = Ok true. Proof. vm_compute. reflexivity. Qed.
Example TestSetOrderedFirstN_8 : @TestSetOrderedFirstN E0 = Ok true. Proof. vm_compute. reflexivity. Qed.
Example TestSetOrderedFirstN_4 : @TestSetOrderedFirstN E4 = Ok true. Proof. vm_compute. reflexivity. Qed.
Example TestSetIsSubsetOf_8 : @TestSetIsSubsetOf E0 = Ok true. Proof. vm_compute. reflexivity. Qed.
Example TestSetIsSubsetOf_4 : @TestSetIsSubsetOf E4 = Ok true. Proof. vm_compute. reflexivity. Qed.
Example TestSetIsSubsetOfLarge_8 : @TestSetIsSubsetOfLarge E0 = Ok true. Proof. vm_compute. reflexivity. Qed.
Example TestSetIsSubsetOfLarge_4 : @TestSetIsSubsetOfLarge E4 = Ok true. Proof. vm_compute. reflexivity. Qed.
Example TestSetString_8 : @TestSetString E0 = Ok true. Proof. vm_compute. reflexivity. Qed.
Example TestSetString_4 : @TestSetString E4 = Ok true. Proof. vm_compute. reflexivity. Qed.
Example TestSetWhere_8 : @TestSetWhere E0 = Ok true. Proof. vm_compute. reflexivity. Qed.
Example TestSetWhere_4 : @TestSetWhere E4 = Ok true. Proof. vm_compute. reflexivity. Qed.
Example TestSetMap_8 : @TestSetMap E0 = Ok true. Proof. vm_compute. reflexivity. Qed.
Example TestSetMap_4 : @TestSetMap E4 = Ok true. Proof. vm_compute. reflexivity. Qed.
Example TestSetReduce_8 : @TestSetReduce E0 = Ok true. Proof. vm_compute. reflexivity. Qed.
Example TestSetReduce_4 : @TestSetReduce E4 = Ok true. Proof. vm_compute. reflexivity. Qed.
Example TestSetIntersection_8 : @TestSetIntersection E0 = Ok true. Proof. vm_compute. reflexivity. Qed.
Example TestSetIntersection_4 : @TestSetIntersection E4 = Ok true. Proof. vm_compute. reflexivity. Qed.
Example TestSetUnion_8 : @TestSetUnion E0 = Ok true. Proof. vm_compute. reflexivity. Qed.
Example TestSetUnion_4 : @TestSetUnion E4 = Ok true. Proof. vm_compute. reflexivity. Qed.
Example TestSetDifference_8 : @TestSetDifference E0 = Ok true. Proof. vm_compute. reflexivity. Qed.
Example TestSetDifference_4 : @TestSetDifference E4 = Ok true. Proof. vm_compute. reflexivity. Qed.
Example TestSetSymmetricDifference_8 : @TestSetSymmetricDifference E0 = Ok true. Proof. vm_compute. reflexivity. Qed.
Example TestSetSymmetricDifference_4 : @TestSetSymmetricDifference E4 = Ok true. Proof. vm_compute. reflexivity. Qed.
Example TestSetIntersectionLarge_8 : @TestSetIntersectionLarge E0 = Ok true. Proof. vm_compute. reflexivity. Qed.
Example TestSetIntersectionLarge_4 : @TestSetIntersectionLarge E4 = Ok true. Proof. vm_compute. reflexivity. Qed.
Example TestSetPowerset_8 : @TestSetPowerset E0 = Ok true. Proof. vm_compute. reflexivity. Qed.
Example TestSetPowerset_4 : @TestSetPowerset E4 = Ok true. Proof. vm_compute. reflexivity. Qed.
Example TestSetPowersetLarge_8 : @TestSetPowersetLarge E0 = Ok true. Proof. vm_compute. reflexivity. Qed.
Example TestSetPowersetLarge_4 : @TestSetPowersetLarge E4 = Ok true. Proof. vm_compute. reflexivity. Qed.
Example TestSetGroupBy_8 : @TestSetGroupBy E0 = Ok true. Proof. vm_compute. reflexivity. Qed.
Example TestSetGroupBy_4 : @TestSetGroupBy E4 = Ok true. Proof. vm_compute. reflexivity. Qed.
Example TestSetRange_8 : @TestSetRange E0 = Ok true. Proof. vm_compute. reflexivity. Qed.
Example TestSetRange_4 : @TestSetRange E4 = Ok true. Proof. vm_compute. reflexivity. Qed.
Example TestSetOrderedRange_8 : @TestSetOrderedRange E0 = Ok true. Proof. vm_compute. reflexivity. Qed.
Example TestSetOrderedRange_4 : @TestSetOrderedRange E4 = Ok true. Proof. vm_compute. reflexivity. Qed.
Example TestSetBig_8 : @TestSetBig E0 = Ok true. Proof. vm_compute. reflexivity. Qed.
Example TestSetBig_4 : @TestSetBig E4 = Ok true. Proof. vm_compute. reflexivity. Qed.
Example TestIota_8 : @TestIota E0 = Ok true. Proof. vm_compute. reflexivity. Qed.
Example TestIota_4 : @TestIota E4 = Ok true. Proof. vm_compute. reflexivity. Qed.
Example TestNewSetFromMask64_8 : @TestNewSetFromMask64 E0 = Ok true. Proof. vm_compute. reflexivity. Qed.
Example TestNewSetFromMask64_4 : @TestNewSetFromMask64 E4 = Ok true. Proof. vm_compute. reflexivity. Qed.
Example TestSetMarshalJSON_8 : @TestSetMarshalJSON E0 = Ok true. Proof. vm_compute. reflexivity. Qed.
Example TestSetMarshalJSON_4 : @TestSetMarshalJSON E4 = Ok true. Proof. vm_compute. reflexivity. Qed.
Example TestSetBuilder_8 : @TestSetBuilder E0 = Ok true. Proof. vm_compute. reflexivity. Qed.
Example TestSetBuilder_4 : @TestSetBuilder E4 = Ok true. Proof. vm_compute. reflexivity. Qed.
Example TestSetBuilderRemove_8 : @TestSetBuilderRemove E0 = Ok true. Proof. vm_compute. reflexivity. Qed.
Example TestSetBuilderRemove_4 : @TestSetBuilderRemove E4 = Ok true. Proof. vm_compute. reflexivity. Qed.
Example TestSetBuilderWithRedundantAddsAndRemoves_8 : @TestSetBuilderWithRedundantAddsAndRemoves E0 = Ok true. Proof. vm_compute. reflexivity. Qed.
Example TestSetBuilderWithRedundantAddsAndRemoves_4 : @TestSetBuilderWithRedundantAddsAndRemoves E4 = Ok true. Proof. vm_compute. reflexivity. Qed.
Example TestBadHash_8 : @TestBadHash E0 = Ok true. Proof. vm_compute. reflexivity. Qed.
Example TestBadHash_4 : @TestBadHash E4 = Ok true. Proof. vm_compute. reflexivity. Qed.
Example TestRemoveCollider_8 : @TestRemoveCollider E0 = Ok true. Proof. vm_compute. reflexivity. Qed.
Example TestRemoveCollider_4 : @TestRemoveCollider E4 = Ok true. Proof. vm_compute. reflexivity. Qed.
Example TestBranchRemove_8 : @TestBranchRemove E0 = Ok true. Proof. vm_compute. reflexivity. Qed.
Example TestBranchRemove_4 : @TestBranchRemove E4 = Ok true. Proof. vm_compute. reflexivity. Qed.
Example TestPackedWith_8 : @TestPackedWith E0 = Ok true. Proof. vm_compute. reflexivity. Qed.
Example TestPackedWith_4 : @TestPackedWith E4 = Ok true. Proof. vm_compute. reflexivity. Qed.
Example TestMasker_run : TestMasker = Ok true. Proof. vm_compute. reflexivity. Qed.
Example TestKeyValueString_run : TestKeyValueString = Ok true. Proof. vm_compute. reflexivity. Qed.
Example TestMapEmpty_8 : @TestMapEmpty E0 = Ok true. Proof. vm_compute. reflexivity. Qed.
Example TestMapEmpty_4 : @TestMapEmpty E4 = Ok true. Proof. vm_compute. reflexivity. Qed.
Example TestMap2_8 : @TestMap2 E0 = Ok true. Proof. vm_compute. reflexivity. Qed.
Example TestMap2_4 : @TestMap2 E4 = Ok true. Proof. vm_compute. reflexivity. Qed.
Example TestMapWithWithout_8 : @TestMapWithWithout E0 = Ok true. Proof. vm_compute. reflexivity. Qed.
Example TestMapWithWithout_4 : @TestMapWithWithout E4 = Ok true. Proof. vm_compute. reflexivity. Qed.
Example TestMapHasGet_8 : @TestMapHasGet E0 = Ok true. Proof. vm_compute. reflexivity. Qed.
Example TestMapHasGet_4 : @TestMapHasGet E4 = Ok true. Proof. vm_compute. reflexivity. Qed.
Example TestMapRedundantWithWithout_8 : @TestMapRedundantWithWithout E0 = Ok true. Proof. vm_compute. reflexivity. Qed.
Example TestMapRedundantWithWithout_4 : @TestMapRedundantWithWithout E4 = Ok true. Proof. vm_compute. reflexivity. Qed.
Example TestMapNewMapFromGoMap_8 : @TestMapNewMapFromGoMap E0 = Ok true. Proof. vm_compute. reflexivity. Qed.
Example TestMapNewMapFromGoMap_4 : @TestMapNewMapFromGoMap E4 = Ok true. Proof. vm_compute. reflexivity. Qed.
Example TestMapGetElse_8 : @TestMapGetElse E0 = Ok true. Proof. vm_compute. reflexivity. Qed.
Example TestMapGetElse_4 : @TestMapGetElse E4 = Ok true. Proof. vm_compute. reflexivity. Qed.
Example TestMapKeysValues_8 : @TestMapKeysValues E0 = Ok true. Proof. vm_compute. reflexivity. Qed.
Example TestMapKeysValues_4 : @TestMapKeysValues E4 = Ok true. Proof. vm_compute. reflexivity. Qed.
Example TestMapProject_8 : @TestMapProject E0 = Ok true. Proof. vm_compute. reflexivity. Qed.
Example TestMapProject_4 : @TestMapProject E4 = Ok true. Proof. vm_compute. reflexivity. Qed.
Example TestMapWhereMap_8 : @TestMapWhereMap E0 = Ok true. Proof. vm_compute. reflexivity. Qed.
Example TestMapWhereMap_4 : @TestMapWhereMap E4 = Ok true. Proof. vm_compute. reflexivity. Qed.
Example TestMapUpdate_8 : @TestMapUpdate E0 = Ok true. Proof. vm_compute. reflexivity. Qed.
Example TestMapUpdate_4 : @TestMapUpdate E4 = Ok true. Proof. vm_compute. reflexivity. Qed.
Example TestMapHashAndEqual_8 : @TestMapHashAndEqual E0 = Ok true. Proof. vm_compute. reflexivity. Qed.
Example TestMapHashAndEqual_4 : @TestMapHashAndEqual E4 = Ok true. Proof. vm_compute. reflexivity. Qed.
Example TestMapString_8 : @TestMapString E0 = Ok true. Proof. vm_compute. reflexivity. Qed.
Example TestMapString_4 : @TestMapString E4 = Ok true. Proof. vm_compute. reflexivity. Qed.
Example TestMapRange_8 : @TestMapRange E0 = Ok true. Proof. vm_compute. reflexivity. Qed.
Example TestMapRange_4 : @TestMapRange E4 = Ok true. Proof. vm_compute. reflexivity. Qed.
Example TestMapMerge_8 : @TestMapMerge E0 = Ok true. Proof. vm_compute. reflexivity. Qed.
Example TestMapMerge_4 : @TestMapMerge E4 = Ok true. Proof. vm_compute. reflexivity. Qed.
Example TestMapToGoMap_8 : @TestMapToGoMap E0 = Ok true. Proof. vm_compute. reflexivity. Qed.
Example TestMapToGoMap_4 : @TestMapToGoMap E4 = Ok true. Proof. vm_compute. reflexivity. Qed.
Example TestMapMarshalJSON_8 : @TestMapMarshalJSON E0 = Ok true. Proof. vm_compute. reflexivity. Qed.
Example TestMapMarshalJSON_4 : @TestMapMarshalJSON E4 = Ok true. Proof. vm_compute. reflexivity. Qed.
Example TestMapBuilder_8 : @TestMapBuilder E0 = Ok true. Proof. vm_compute. reflexivity. Qed.
Example TestMapBuilder_4 : @TestMapBuilder E4 = Ok true. Proof. vm_compute. reflexivity. Qed.
Example TestMapBuilderSimple_8 : @TestMapBuilderSimple E0 = Ok true. Proof. vm_compute. reflexivity. Qed.
Example TestMapBuilderSimple_4 : @TestMapBuilderSimple E4 = Ok true. Proof. vm_compute. reflexivity. Qed.
Example TestMapBuilderRemove_8 : @TestMapBuilderRemove E0 = Ok true. Proof. vm_compute. reflexivity. Qed.
Example TestMapBuilderRemove_4 : @TestMapBuilderRemove E4 = Ok true. Proof. vm_compute. reflexivity. Qed.
Example TestMapBuilderWithRedundantAddsAndRemoves_8 : @TestMapBuilderWithRedundantAddsAndRemoves E0 = Ok true. Proof. vm_compute. reflexivity. Qed.
Example TestMapBuilderWithRedundantAddsAndRemoves_4 : @TestMapBuilderWithRedundantAddsAndRemoves E4 = Ok true. Proof. vm_compute. reflexivity. Qed.
Example TestIntSetNew_8 : @TestIntSetNew E0 = Ok true. Proof. vm_compute. reflexivity. Qed.
Example TestIntSetNew_4 : @TestIntSetNew E4 = Ok true. Proof. vm_compute. reflexivity. Qed.
Example TestIntSetIter_8 : @TestIntSetIter E0 = Ok true. Proof. vm_compute. reflexivity. Qed.
Example TestIntSetIter_4 : @TestIntSetIter E4 = Ok true. Proof. vm_compute. reflexivity. Qed.
Example TestIntSetWith_8 : @TestIntSetWith E0 = Ok true. Proof. vm_compute. reflexivity. Qed.
Example TestIntSetWith_4 : @TestIntSetWith E4 = Ok true. Proof. vm_compute. reflexivity. Qed.
Example TestIntSetWithout_8 : @TestIntSetWithout E0 = Ok true. Proof. vm_compute. reflexivity. Qed.
Example TestIntSetWithout_4 : @TestIntSetWithout E4 = Ok true. Proof. vm_compute. reflexivity. Qed.
Example TestIntSetIntersection_8 : @TestIntSetIntersection E0 = Ok true. Proof. vm_compute. reflexivity. Qed.
Example TestIntSetIntersection_4 : @TestIntSetIntersection E4 = Ok true. Proof. vm_compute. reflexivity. Qed.
Example TestIntSetUnion_8 : @TestIntSetUnion E0 = Ok true. Proof. vm_compute. reflexivity. Qed.
Example TestIntSetUnion_4 : @TestIntSetUnion E4 = Ok true. Proof. vm_compute. reflexivity. Qed.
Example TestIntSetIsSubsetOf_8 : @TestIntSetIsSubsetOf E0 = Ok true. Proof. vm_compute. reflexivity. Qed.
Example TestIntSetIsSubsetOf_4 : @TestIntSetIsSubsetOf E4 = Ok true. Proof. vm_compute. reflexivity. Qed.
Example TestIntSetWhere_8 : @TestIntSetWhere E0 = Ok true. Proof. vm_compute. reflexivity. Qed.
Example TestIntSetWhere_4 : @TestIntSetWhere E4 = Ok true. Proof. vm_compute. reflexivity. Qed.
Example TestIntSetMap_8 : @TestIntSetMap E0 = Ok true. Proof. vm_compute. reflexivity. Qed.
Example TestIntSetMap_4 : @TestIntSetMap E4 = Ok true. Proof. vm_compute. reflexivity. Qed.
Example TestJoinSimple_8 : @TestJoinSimple E0 = Ok true. Proof. vm_compute. reflexivity. Qed.
Example TestJoinSimple_4 : @TestJoinSimple E4 = Ok true. Proof. vm_compute. reflexivity. Qed.
Example TestJoinExhaustive_8 : @TestJoinExhaustive E0 = Ok true. Proof. vm_compute. reflexivity. Qed.
Example TestJoinExhaustive_4 : @TestJoinExhaustive E4 = Ok true. Proof. vm_compute. reflexivity. Qed.
Example TestNest_8 : @TestNest E0 = Ok true. Proof. vm_compute. reflexivity. Qed.
Example TestNest_4 : @TestNest E4 = Ok true. Proof. vm_compute. reflexivity. Qed.
Example TestUnnest_8 : @TestUnnest E0 = Ok true. Proof. vm_compute. reflexivity. Qed.
Example TestUnnest_4 : @TestUnnest E4 = Ok true. Proof. vm_compute. reflexivity. Qed.
Example TestLazySetEmpty_8 : @TestLazySetEmpty E0 = Ok true. Proof. vm_compute. reflexivity. Qed.
Example TestLazySetEmpty_4 : @TestLazySetEmpty E4 = Ok true. Proof. vm_compute. reflexivity. Qed.
Example TestLazySetFrozenEmpty_8 : @TestLazySetFrozenEmpty E0 = Ok true. Proof. vm_compute. reflexivity. Qed.
Example TestLazySetFrozenEmpty_4 : @TestLazySetFrozenEmpty E4 = Ok true. Proof. vm_compute. reflexivity. Qed.
Example TestLazySetFrozenSmall_8 : @TestLazySetFrozenSmall E0 = Ok true. Proof. vm_compute. reflexivity. Qed.
Example TestLazySetFrozenSmall_4 : @TestLazySetFrozenSmall E4 = Ok true. Proof. vm_compute. reflexivity. Qed.
Example TestLazySetPowerset_8 : @TestLazySetPowerset E0 = Ok true. Proof. vm_compute. reflexivity. Qed.
Example TestLazySetPowerset_4 : @TestLazySetPowerset E4 = Ok true. Proof. vm_compute. reflexivity. Qed.
Example TestLazySetWhereEmpty_8 : @TestLazySetWhereEmpty E0 = Ok true. Proof. vm_compute. reflexivity. Qed.
Example TestLazySetWhereEmpty_4 : @TestLazySetWhereEmpty E4 = Ok true. Proof. vm_compute. reflexivity. Qed.
Example TestLazySet_8 : @TestLazySet E0 = Ok true. Proof. vm_compute. reflexivity. Qed.
Example TestLazySet_4 : @TestLazySet E4 = Ok true. Proof. vm_compute. reflexivity. Qed.
Example TestSetHash_8 : @TestSetHash E0 = Ok true. Proof. vm_compute. reflexivity. Qed.
Example TestSetHash_4 : @TestSetHash E4 = Ok true. Proof. vm_compute. reflexivity. Qed.
Example TestSetEqualLarge_8 : @TestSetEqualLarge E0 = Ok true. Proof. vm_compute. reflexivity. Qed.
Example TestSetEqualLarge_4 : @TestSetEqualLarge E4 = Ok true. Proof. vm_compute. reflexivity. Qed.
Example TestSetOfSet_8 : @TestSetOfSet E0 = Ok true. Proof. vm_compute. reflexivity. Qed.
Example TestSetOfSet_4 : @TestSetOfSet E4 = Ok true. Proof. vm_compute. reflexivity. Qed.
Example TestSetOfMap_8 : @TestSetOfMap E0 = Ok true. Proof. vm_compute. reflexivity. Qed.
Example TestSetOfMap_4 : @TestSetOfMap E4 = Ok true. Proof. vm_compute. reflexivity. Qed.
Example TestSetOfIntSet_8 : @TestSetOfIntSet E0 = Ok true. Proof. vm_compute. reflexivity. Qed.
Example TestSetOfIntSet_4 : @TestSetOfIntSet E4 = Ok true. Proof. vm_compute. reflexivity. Qed.
