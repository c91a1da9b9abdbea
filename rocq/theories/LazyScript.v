(** * LazyScript: programs that use the lazy package

    The vocabulary of the theorems about lazy sets. A goroutine is a list of calls of the exported methods on
    sets and iterators it holds; every set carries, as a label, the description of how it was made, from which
    its mathematical meaning is read off. The labels do not influence the run. *)
From Verif Require Import Base Bits Env Node Iter Tree SetApi Reach Spec Lazy LazyFacts.
Local Open Scope Z_scope.

Section LazyScript.
Context {E : Env} {T : Type} {K : Key T} {B : Boxes T}.
Notation lset := (lset T).
Notation liter := (liter T).
Notation prog := (prog T).

(** ** Descriptions *)

(** How a set was made: by the functions lazy.Frozen (set_frozen.go:10-14) and the methods of lazy/set.go:13-110. *)
Inductive uexp : Type :=
| UEmpty | UFrozen (s : set T)
| UWith (u : uexp) (v : T) | UWithout (u : uexp) (v : T)
| UWhere (u : uexp) (p : T -> bool) | UMap (u : uexp) (m : T -> T)
| UUnion (u w : uexp) | UInter (u w : uexp) | UDiff (u w : uexp) | USym (u w : uexp)
| UFreeze (u : uexp)
| UPow (u : uexp).

(** The mathematical set. *)
Fixpoint Member (vok : T -> Prop) (u : uexp) (x : T) : Prop :=
  match u with
  | UEmpty => False
  | UFrozen s => Has s x
  | UWith u v => veq v x = true \/ Member vok u x
  | UWithout u v => veq v x = false /\ Member vok u x
  | UWhere u p => Member vok u x /\ p x = true
  | UMap u m => exists y, vok y /\ Member vok u y /\ veq (m y) x = true
  | UUnion u w => Member vok u x \/ Member vok w x
  | UInter u w => Member vok u x /\ Member vok w x
  | UDiff u w => Member vok u x /\ ~ Member vok w x
  | USym u w => (Member vok u x /\ ~ Member vok w x) \/ (Member vok w x /\ ~ Member vok u x)
  | UFreeze u => Member vok u x
  | UPow u => exists s, SetReach vok s /\ (forall y, vok y -> Has s y -> Member vok u y) /\ veq (box s) x = true
  end.

(** Sets that hold their elements from the start. *)
Fixpoint Held (u : uexp) : Prop :=
  match u with
  | UEmpty | UFrozen _ | UFreeze _ => True
  | UWith u _ | UWithout u _ | UMap u _ => Held u
  | _ => False
  end.

(** Sets whose Has is right: neither the set nor a set it asks is a Difference or a Powerset. [RangeFine]: sets whose Range is
    right, because the sets that their iteration asks with Has are of that kind. *)
Fixpoint HasFine (u : uexp) : Prop :=
  match u with
  | UEmpty | UFrozen _ => True
  | UWith u _ | UWhere u _ => HasFine u
  | UWithout u _ => Held u /\ RangeFine u
  | UMap u _ | UFreeze u => RangeFine u
  | UUnion u w | UInter u w => HasFine u /\ HasFine w
  | UDiff _ _ | USym _ _ | UPow _ => False
  end
with RangeFine (u : uexp) : Prop :=
  match u with
  | UEmpty | UFrozen _ => True
  | UWith u _ | UWithout u _ | UWhere u _ | UMap u _ | UFreeze u | UPow u => RangeFine u
  | UUnion u w => RangeFine u /\ RangeFine w
  | UInter u w | UDiff u w => RangeFine u /\ HasFine w
  | USym u w => HasFine u /\ HasFine w
  end.

(** Sets that are not the EmptySet object. *)
Fixpoint Solid (u : uexp) : Prop :=
  match u with
  | UEmpty | UInter _ _ => False
  | UFrozen _ | UWith _ _ | UFreeze _ | UPow _ => True
  | UWithout u _ | UWhere u _ | UMap u _ | UDiff u _ => Solid u
  | UUnion u w | USym u w => Solid u \/ Solid w
  end.

(** Sets whose counting methods are right: no value is met twice on the way. *)
Fixpoint CountFine (vok : T -> Prop) (u : uexp) : Prop :=
  match u with
  | UEmpty | UFrozen _ | UFreeze _ | UPow _ => True
  | UWith u v => Held u \/ (CountFine vok u /\ ~ Member vok u v)
  | UMap u m => Held u \/ (CountFine vok u /\ forall y z, vok y -> vok z -> Member vok u y -> Member vok u z ->
                                                          veq (m y) (m z) = true -> veq y z = true)
  | UWithout u _ | UWhere u _ | UInter u _ | UDiff u _ => CountFine vok u
  | UUnion u w => CountFine vok u /\ CountFine vok w /\ forall x, vok x -> Member vok u x -> ~ Member vok w x
  | USym u w => CountFine vok u /\ CountFine vok w
  end.

(** Sets whose Range gives no value twice. *)
Fixpoint OnceFine (vok : T -> Prop) (u : uexp) : Prop :=
  match u with
  | UWithout u _ | UDiff u _ => CountFine vok u
  | UUnion u w | USym u w => Solid u \/ OnceFine vok w
  | _ => True
  end.

(** Sets whose FastHas is right. *)
Fixpoint FastFine (u : uexp) : Prop :=
  match u with
  | UWith u _ | UWithout u _ => Held u
  | UInter u w => FastFine u /\ FastFine w
  | UUnion _ _ | UDiff _ _ | USym _ _ => False
  | _ => True
  end.

(** The set has [n] elements. *)
Definition Card (vok : T -> Prop) (u : uexp) (n : Z) : Prop :=
  exists l, Lists vok l (Member vok u) /\ n = Z.of_nat (length l).

(** Powerset may be called on the set: it has between 1 and 62 elements and is counted right; and the interface
    values that hold the subsets are in the domain of the key operations and equal only for equal subsets, and one
    that holds a frozen.Set holds one made by the library. The power set of an empty set that is not EmptySet takes
    itself for empty, and that of a larger set exceeds the counter of the iterator (see the refutations of C37). *)
Definition PowFine (vok : T -> Prop) (u : uexp) : Prop :=
  let Sub s := SetReach vok s /\ forall y, vok y -> Has s y -> Member vok u y in
  CountFine vok u /\ (exists n, Card vok u n /\ 1 <= n <= 62) /\
  (forall s, Sub s -> vok (box s)) /\
  (forall s t, Sub s -> Sub t -> (veq (box s) (box t) = true <-> SameMembers vok s t)) /\
  (forall x s, vok x -> unbox x = Some s -> SetReach vok s).

(** ** Calls *)

(** Calls of the package. The numbers name sets, or iterators, that the goroutine holds, in the order it got
    them. *)
Inductive call : Type :=
| CEmpty | CFrozen (s : set T)
| CWith (i : nat) (v : T) | CWithout (i : nat) (v : T)
| CWhere (i : nat) (p : T -> bool) | CMap (i : nat) (m : T -> T)
| CUnion (i j : nat) | CInter (i j : nat) | CDiff (i j : nat) | CSym (i j : nat)
| CFreeze (i : nat) | CPow (i : nat)
| CHas (i : nat) (x : T) | CFastHas (i : nat) (x : T)
| CIsEmpty (i : nat) | CFastIsEmpty (i : nat)
| CCount (i : nat) | CFastCount (i : nat) | CCountUpTo (i : nat) (limit : Z) | CFastCountUpTo (i : nat) (limit : Z)
| CEqual (i j : nat) | CEqualSet (i j : nat) | CSubset (i j : nat) | CHash (i : nat) (seed : N)
| CRange (i : nat) | CNext (k : nat).

(** What the goroutine sees: the question and the answer. *)
Inductive answer : Type :=
| AHas (u : uexp) (x : T) (b : bool) | AFastHas (u : uexp) (x : T) (r : option bool)
| AIsEmpty (u : uexp) (b : bool) | AFastIsEmpty (u : uexp) (r : option bool)
| ACount (u : uexp) (n : Z) | AFastCount (u : uexp) (r : option Z)
| ACountUpTo (u : uexp) (limit n : Z) | AFastCountUpTo (u : uexp) (limit : Z) (r : option Z)
| AEqual (u w : uexp) (b : bool) | AEqualSet (u w : uexp) (b : bool) | ASubset (u w : uexp) (b : bool)
| AHash (u : uexp) (seed h : N)
| AFreeze (u : uexp) (s : set T)
| AValue (u : uexp) (v : T)                (* Next was true, and Value gave v *)
| ADone (u : uexp) (l : list T).           (* Next was false; l are all the values the iterator gave *)

(** The sets and the iterators a goroutine holds. An iterator that has reported false is not used again: *)
(** its last component is then [None]. *)
Record gst := mkG { g_sets : list (uexp * lset); g_iters : list (uexp * list T * option liter) }.

Definition theSet (st : gst) (i : nat) : uexp * lset := nth i (g_sets st) (UEmpty, LEmpty).
Definition addSet (st : gst) (u : uexp) (e : lset) : gst := mkG (g_sets st ++ [(u, e)]) (g_iters st).

(** A call that makes a set. *)
Definition make (st : gst) (u : uexp) (m : prog lset) : prog (list answer * gst) :=
  e <~ m ;; Ret ([], addSet st u e).
(** A call that answers a question. *)
Definition ask {A} (st : gst) (m : prog A) (a : A -> answer) : prog (list answer * gst) :=
  r <~ m ;; Ret ([a r], st).

Definition runCall (c : call) (st : gst) : prog (list answer * gst) :=
  match c with
  | CEmpty => make st UEmpty (Ret LEmpty)
  | CFrozen s => make st (UFrozen s) (Ret (LFrozen s))
  | CWith i v => let '(u, e) := theSet st i in make st (UWith u v) (l_with e v)
  | CWithout i v => let '(u, e) := theSet st i in make st (UWithout u v) (l_without e v)
  | CWhere i p => let '(u, e) := theSet st i in make st (UWhere u p) (l_where e p)
  | CMap i m => let '(u, e) := theSet st i in make st (UMap u m) (l_map e m)
  | CUnion i j => let '(u, e) := theSet st i in let '(w, t) := theSet st j in make st (UUnion u w) (l_union e t)
  | CInter i j => let '(u, e) := theSet st i in let '(w, t) := theSet st j in make st (UInter u w) (l_intersection e t)
  | CDiff i j => let '(u, e) := theSet st i in let '(w, t) := theSet st j in make st (UDiff u w) (l_difference e t)
  | CSym i j =>
      let '(u, e) := theSet st i in let '(w, t) := theSet st j in make st (USym u w) (l_symmetricDifference e t)
  | CFreeze i => (* the result is a frozenSet, as theorem C39_runs shows *)
      let '(u, e) := theSet st i in
      f <~ l_freeze e ;;
      match f with LFrozen s => Ret ([AFreeze u s], addSet st (UFreeze u) f) | _ => PPanic end
  | CPow i => let '(u, e) := theSet st i in make st (UPow u) (l_powerset e)
  | CHas i x => let '(u, e) := theSet st i in ask st (l_has e x) (AHas u x)
  | CFastHas i x => let '(u, e) := theSet st i in ask st (l_fastHas e x) (AFastHas u x)
  | CIsEmpty i => let '(u, e) := theSet st i in ask st (l_isEmpty e) (AIsEmpty u)
  | CFastIsEmpty i => let '(u, e) := theSet st i in ask st (l_fastIsEmpty e) (AFastIsEmpty u)
  | CCount i => let '(u, e) := theSet st i in ask st (l_count e) (ACount u)
  | CFastCount i => let '(u, e) := theSet st i in ask st (l_fastCount e) (AFastCount u)
  | CCountUpTo i n => let '(u, e) := theSet st i in ask st (l_countUpTo e n) (ACountUpTo u n)
  | CFastCountUpTo i n => let '(u, e) := theSet st i in ask st (l_fastCountUpTo e n) (AFastCountUpTo u n)
  | CEqual i j => let '(u, e) := theSet st i in let '(w, t) := theSet st j in ask st (l_equal e t) (AEqual u w)
  | CEqualSet i j => let '(u, e) := theSet st i in let '(w, t) := theSet st j in ask st (l_equalSet e t) (AEqualSet u w)
  | CSubset i j => let '(u, e) := theSet st i in let '(w, t) := theSet st j in ask st (l_isSubsetOf e t) (ASubset u w)
  | CHash i seed => let '(u, e) := theSet st i in ask st (l_hash e seed) (AHash u seed)
  | CRange i =>
      let '(u, e) := theSet st i in
      it <~ l_range e ;; Ret ([], mkG (g_sets st) (g_iters st ++ [(u, [], Some it)]))
  | CNext k =>
      match nth_error (g_iters st) k with
      | Some (u, given, Some it) =>
          '(ok, it') <~ l_next it ;;
          if (ok : bool) then
            v <~ lift (l_value it') ;;
            Ret ([AValue u v], mkG (g_sets st) (set_nth (g_iters st) k (u, given ++ [v], Some it')))
          else Ret ([ADone u given], mkG (g_sets st) (set_nth (g_iters st) k (u, given, None)))
      | _ => Ret ([], st)
      end
  end.

(** A goroutine. *)
Fixpoint runScript (cs : list call) (st : gst) : prog (list answer * gst) :=
  match cs with
  | [] => Ret ([], st)
  | c :: cs =>
      '(a1, st1) <~ runCall c st ;;
      '(a2, st2) <~ runScript cs st1 ;;
      Ret (a1 ++ a2, st2)
  end.

(** A program: the main goroutine runs [setup]; then the goroutines [scripts], which all hold the sets made by the
    main goroutine, take turns as [sched] says. *)
Definition session (setup : list call) (scripts : list (list call)) (sched : list nat)
    : res (pool T (list answer * gst)) :=
  '(_, st, h) <- exec (runScript setup (mkG [] [])) [] ;;
  Ok (poolRun sched (map (fun cs => runScript cs (mkG (g_sets st) [])) scripts, h)).

(** ** The programs considered *)

Definition nthU (us : list uexp) (i : nat) : uexp := nth i us UEmpty.

(** The description of the set that a call makes. *)
Definition made_by (us : list uexp) (c : call) : option uexp :=
  match c with
  | CEmpty => Some UEmpty
  | CFrozen s => Some (UFrozen s)
  | CWith i v => Some (UWith (nthU us i) v)
  | CWithout i v => Some (UWithout (nthU us i) v)
  | CWhere i p => Some (UWhere (nthU us i) p)
  | CMap i m => Some (UMap (nthU us i) m)
  | CUnion i j => Some (UUnion (nthU us i) (nthU us j))
  | CInter i j => Some (UInter (nthU us i) (nthU us j))
  | CDiff i j => Some (UDiff (nthU us i) (nthU us j))
  | CSym i j => Some (USym (nthU us i) (nthU us j))
  | CFreeze i => Some (UFreeze (nthU us i))
  | CPow i => Some (UPow (nthU us i))
  | _ => None
  end.

Definition grow (us : list uexp) (c : call) : list uexp :=
  match made_by us c with Some u => us ++ [u] | None => us end.

(** The arguments of the calls are fine: the values are in the domain of the key operations; frozen sets were made by
    the library; predicates and mappers respect value.Equal. *)
Definition ArgOk (vok : T -> Prop) (c : call) : Prop :=
  match c with
  | CFrozen s => SetReach vok s
  | CWith _ v | CWithout _ v => vok v
  | CWhere _ p => forall a b, vok a -> vok b -> veq a b = true -> p a = p b
  | CMap _ m => (forall a, vok a -> vok (m a)) /\
                (forall a b, vok a -> vok b -> veq a b = true -> veq (m a) (m b) = true)
  | CHas _ x | CFastHas _ x => vok x
  | _ => True
  end.

(** All arguments are fine, every set made is one whose Range is right, and Powerset is called on sets that allow it. *)
Fixpoint ScriptOk (vok : T -> Prop) (us : list uexp) (cs : list call) : Prop :=
  match cs with
  | [] => True
  | c :: cs =>
      ArgOk vok c /\ (match made_by us c with Some u => RangeFine u | None => True end) /\
      (match c with CPow i => PowFine vok (nthU us i) | _ => True end) /\
      ScriptOk vok (grow us c) cs
  end.

Definition SessionOk (vok : T -> Prop) (setup : list call) (scripts : list (list call)) : Prop :=
  ScriptOk vok [] setup /\ forall cs, In cs scripts -> ScriptOk vok (fold_left grow setup []) cs.

(** ** Right answers *)

Definition Right (vok : T -> Prop) (a : answer) : Prop :=
  match a with
  | AHas u x b => HasFine u -> (b = true <-> Member vok u x)
  | AFastHas u x r => FastFine u -> forall b, r = Some b -> (b = true <-> Member vok u x)
  | AIsEmpty u b => b = true <-> forall x, vok x -> ~ Member vok u x
  | AFastIsEmpty u r => forall b, r = Some b -> (b = true <-> forall x, vok x -> ~ Member vok u x)
  | ACount u n => CountFine vok u -> forall k, Card vok u k -> k < 2 ^ 63 -> n = k
  | AFastCount u r => forall n, r = Some n -> Card vok u n
  | ACountUpTo u limit n => CountFine vok u -> 0 <= limit -> forall k, Card vok u k -> n = Z.min limit k
  | AFastCountUpTo u limit r =>
      CountFine vok u -> 0 <= limit -> forall k n, Card vok u k -> r = Some n -> n = Z.min limit k
  | AEqual u w b =>
      OnceFine vok w -> Solid u -> (b = true <-> forall x, vok x -> (Member vok u x <-> Member vok w x))
  | AEqualSet u w b => OnceFine vok w -> (b = true <-> forall x, vok x -> (Member vok u x <-> Member vok w x))
  | ASubset u w b => OnceFine vok w -> (b = true <-> forall x, vok x -> Member vok u x -> Member vok w x)
  | AHash u seed h =>
      CountFine vok u ->
      exists l, Lists vok l (Member vok u) /\ h = fold_left (fun h v => vhash v h) l (env_uintptr hashSeed seed)
  | AFreeze u s => forall x, vok x -> (Has s x <-> Member vok u x)
  | AValue u v => vok v /\ Member vok u v
  | ADone u l =>
      (forall x, vok x -> (Member vok u x <-> exists e, In e l /\ veq e x = true)) /\
      (OnceFine vok u -> Lists vok l (Member vok u))
  end.

End LazyScript.
Arguments uexp T : clear implicits.
Arguments call T : clear implicits.
Arguments answer T : clear implicits.
Arguments gst T : clear implicits.
