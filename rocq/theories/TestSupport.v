(** * TestSupport: the helpers of internal/pkg/test that decide what the project's own tests accept (C62, C63). *)
From Coq Require Import List Bool Arith NArith Lia Permutation.
Import ListNotations.
From Verif Require Import Base Bits Env Node.

(** ** util.go: ElementsMatch *)

Section Same.
Context {A : Type} (deq : A -> A -> bool).

(** util.go:82-88: the loop [for j := range indices] over a Go map, whose order is up to the run time ([order]: the order in which
    the remaining indices are tried); the first index with an equal element is deleted from the map. *)
Fixpoint tryIndices (a : A) (v : list A) (order : list nat) : option nat :=
  match order with
  | [] => None
  | j :: order' =>
      match nth_error v j with
      | Some b => if deq a b then Some j else tryIndices a v order'
      | None => tryIndices a v order'
      end
  end.
(** util.go:79-90: the loop labelled [outer], from the last element of [u] to the first ([us]: the elements of [u], last one first);
    [pick n l]: the order of the map [l] in round [n]. *)
Fixpoint matchAll (pick : nat -> list nat -> list nat) (round : nat) (us v : list A) (indices : list nat) : bool :=
  match us with
  | [] => true
  | a :: us' =>
      match tryIndices a v (pick round indices) with
      | Some j => matchAll pick (S round) us' v (remove Nat.eq_dec j indices)
      | None => false
      end
  end.
(** util.go:70-90 [sameElements] for arrays and slices of the same kind. *)
Definition sameSlices (pick : nat -> list nat -> list nat) (u v : list A) : bool :=
  if (length v =? length u)%nat then matchAll pick 0 (rev u) v (rev (seq 0 (length v))) else false.

(** Run times order the map in some way. *)
Definition pickOk (pick : nat -> list nat -> list nat) : Prop := forall n l, Permutation (pick n l) l.
End Same.

(** util.go:91-96 [sameElements] for strings. The first comparison reads [m[i] < n[j]], the second one, too; both slices are sorted
    with sort.Slice, which for at most 12 elements is the insertion sort of the Go library (sort/zsortfunc.go insertionSort_func:
    for i from a+1, for j = i while j > a and less(j, j-1), swap). Longer strings are not modelled. An index that is out of
    range is a panic. *)
Definition lessBytes (m n : list N) (i j : nat) : res bool :=
  match nth_error m i, nth_error n j with Some x, Some y => Ok (N.ltb x y) | _, _ => Panic end.
Definition swap (l : list N) (i j : nat) : list N := set_nth (set_nth l i (nth j l 0%N)) j (nth i l 0%N).
(** One element moves down from position [j]; [cur] is the slice that is sorted, [less cur] compares two positions. *)
Fixpoint moveDown (less : list N -> nat -> nat -> res bool) (j : nat) (cur : list N) : res (list N) :=
  match j with
  | O => Ok cur
  | S j' => b <- less cur j j' ;; if (b : bool) then moveDown less j' (swap cur j j') else Ok cur
  end.
Fixpoint insertAll (less : list N -> nat -> nat -> res bool) (todo i : nat) (cur : list N) : res (list N) :=
  match todo with
  | O => Ok cur
  | S k => cur' <- moveDown less i cur ;; insertAll less k (S i) cur'
  end.
Definition sortSlice (less : list N -> nat -> nat -> res bool) (l : list N) : res (list N) := insertAll less (length l - 1) 1 l.
Fixpoint bytes_eqb (a b : list N) : bool :=
  match a, b with [], [] => true | x :: a', y :: b' => N.eqb x y && bytes_eqb a' b' | _, _ => false end.
Definition sameStrings (u v : list N) : res bool :=
  m <- sortSlice (fun cur i j => lessBytes cur v i j) u ;;
  n <- sortSlice (fun cur i j => lessBytes m cur i j) v ;;
  Ok (bytes_eqb m n).

(** util.go:124-130 [mapOf]: the keys of the map it makes are values of type reflect.Value, which MapIter.Key returns for a copy of
    the key at a new address (reflect/value.go copyVal) unless the key is held as a pointer. Go compares them by address.
    Here: for keys not held as pointers, the keys of the new map are addresses never used before; [next] is the first free one. *)
Definition mapOf {K V} (next : nat) (m : list (K * V)) : list (nat * V) := List.combine (seq next (length m)) (map snd m).
(** util.go:97-108 [sameElements] for maps (of such keys). [deq] stands for reflect.DeepEqual of the values. *)
Definition sameMaps {K V} (deq : V -> V -> bool) (next : nat) (x y : list (K * V)) : bool :=
  let m := mapOf next x in
  let n := mapOf (next + length x) y in
  (length m =? length n)%nat &&
  forallb (fun ka => match find (fun kb => Nat.eqb (fst kb) (fst ka)) n with Some kb => deq (snd ka) (snd kb) | None => false end) m.

(** ** replayable.go *)

Section Replay.
Context {Key : Type} (keq : Key -> Key -> bool).

(** What the function given to Replayable does with its Replayer: it ends, panics, asks for a marker (replayable.go:48-65; the key is
    file, line and arguments, the answer is IsTarget, :19-21) or replays (:67-72), to a marker it holds ([Some k]) or to the
    latest one (nil marker). What follows a replay is only reached if replaying is disabled. *)
Inductive prog :=
| PEnd
| PPanic
| PMark (k : Key) (next : bool -> prog)
| PReplay (m : option Key) (next : prog).

(** How one run ends, with the markers it set and their answers. *)
Inductive outcome := Ended | Panicked | Again (target : option Key).
(** replayable.go:37-44: not enabled. *)
Fixpoint runDisabled (p : prog) : list (Key * bool) * outcome :=
  match p with
  | PEnd => ([], Ended)
  | PPanic => ([], Panicked)
  | PMark k next => let (l, o) := runDisabled (next false) in ((k, false) :: l, o)
  | PReplay _ next => runDisabled next
  end.
(** replayable.go:48-86: one call of f with the given target. A nil *markerKey in the panic (no marker yet) also means again. *)
Fixpoint runOnce (target latest : option Key) (p : prog) : list (Key * bool) * outcome :=
  match p with
  | PEnd => ([], Ended)
  | PPanic => ([], Panicked)
  | PMark k next =>
      let b := match target with Some t => keq k t | None => false end in
      let (l, o) := runOnce target (Some k) (next b) in ((k, b) :: l, o)
  | PReplay (Some k) _ => ([], Again (Some k))
  | PReplay None _ => ([], Again latest)
  end.
(** replayable.go:56: [latest] after a run with the given markers; the variable is outside the loop (:45) and keeps its value. *)
Definition latestAfter (latest : option Key) (marks : list (Key * bool)) : option Key := match rev marks with (k, _) :: _ => Some k | [] => latest end.
(** replayable.go:45-46,74-88: the loop, at most [fuel] rounds: the markers of each run, and how the last one ended ([None]: still going). *)
Fixpoint replayable (fuel : nat) (target latest : option Key) (p : prog) : list (list (Key * bool)) * option outcome :=
  match fuel with
  | O => ([], None)
  | S k =>
      let (l, o) := runOnce target latest p in
      match o with
      | Again t => let (ls, r) := replayable k t (latestAfter latest l) p in (l :: ls, r)
      | _ => ([l], Some o)
      end
  end.

(** Programs that never replay. *)
Inductive quiet : prog -> Prop :=
| quiet_end : quiet PEnd
| quiet_panic : quiet PPanic
| quiet_mark k next : (forall b, quiet (next b)) -> quiet (PMark k next).
(** Programs that replay only to a marker of the same run, and no more once a marker was the target. [seen]: the markers so far. *)
Inductive polite : list Key -> prog -> Prop :=
| polite_end seen : polite seen PEnd
| polite_panic seen : polite seen PPanic
| polite_mark seen k next : polite (k :: seen) (next false) -> quiet (next true) -> polite seen (PMark k next)
| polite_replay seen k next : In k seen -> polite seen (PReplay (Some k) next)
| polite_latest seen next : seen <> [] -> polite seen (PReplay None next).
End Replay.

(** replayable.go:49-60: the key of a marker that is set at [caller] ([S], a file and a line) with [args]. runtime.Callers(2, ...) skips itself and
    the closure [mark]; the frame it records is that of Replayer.Mark ([replayerMark], replayable.go:29), which called [mark]. The
    stack when runtime.Callers runs, innermost first: Callers itself, [mark] (:50), Replayer.Mark (:29), the caller. *)
Definition stackAt {S : Type} (callersItself inMark replayerMark caller : S) : list S := [callersItself; inMark; replayerMark; caller].
Definition markerKey {S A : Type} (stack : list S) (args : A) : res (S * A) :=
  match nth_error stack 2 with Some f => Ok (f, args) | None => Panic end.

(** ** packer.go: EqualPacker, which only the packer's tests call *)

(** packer.go:14-22 [EqualPacker]: child by child, with the equality of DefaultNPEqArgs (nodeArgs.go:8-10, not parallel). Children are
    compared as if they were roots (depth 0). *)
Fixpoint equalPacker {E : Env} {T : Type} (fuel : nat) (eq : T -> T -> bool) (p q : list (option (node T))) : res bool :=
  match p, q with
  | [], _ => Ok true
  | _ :: _, [] => Panic                                                      (* never: arrays of one length *)
  | None :: p', None :: q' => equalPacker fuel eq p' q'
  | Some a :: p', Some b :: q' => r <- equal fuel NonParallel eq a b 0 ;; if (r : bool) then equalPacker fuel eq p' q' else Ok false
  | _ :: _, _ :: _ => Ok false
  end.
