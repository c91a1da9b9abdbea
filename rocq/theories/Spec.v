(** * Spec: the vocabulary of the property theorems.

    Only the exported functions of the library are mentioned here (Has, Elements, Count, Range, Get, ...),
    never the trie. *)
From Verif Require Import Base Bits Env Node Iter Tree SetApi MapApi.
Local Open Scope Z_scope.

Section SetSpec.
Context {E : Env} {T : Type} {K : Key T}.

(** [s.Has(v)] is true. *)
Definition Has (s : set T) (v : T) : Prop := s_has s v = Ok true.

(** [e] itself (not just an equal value) is among the elements of [s]. *)
Definition Holds (s : set T) (e : T) : Prop := exists l, s_elements s = Ok l /\ In e l.

(** No two entries of the list are equal in the sense of value.Equal. *)
Definition Unequal (l : list T) : Prop :=
  forall i j a b, nth_error l i = Some a -> nth_error l j = Some b -> i <> j -> veq a b = false.

(** The elements of the list, up to value.Equal, are the values satisfying [P]. *)
Definition Lists (vok : T -> Prop) (l : list T) (P : T -> Prop) : Prop :=
  (forall e, In e l -> vok e) /\ Unequal l /\
  forall v, vok v -> P v <-> exists e, In e l /\ veq e v = true.

(** [s] and [t] answer every Has alike. *)
Definition SameMembers (vok : T -> Prop) (s t : set T) : Prop := forall v, vok v -> Has s v <-> Has t v.

(** [n] more calls of Next all report false. *)
Fixpoint StaysDone (n : nat) (it : iter T) : Prop :=
  match n with
  | O => True
  | S n => exists it', i_next it = Ok (false, it') /\ StaysDone n it'
  end.

(** Calling Next and Value alternately gives the values [l], and then Next reports false for ever. *)
Inductive Yields : iter T -> list T -> Prop :=
| yields_end it : (forall n, StaysDone n it) -> Yields it []
| yields_step it it' x l : i_next it = Ok (true, it') -> i_value it' = Ok x -> Yields it' l -> Yields it (x :: l).

(** The number of elements satisfying a test. *)
Definition number (p : T -> bool) (l : list T) : nat := length (filter p l).

(** The two collections hold elements [a] and [b] of the same 64-bit hash; at least one collection has three
    or more elements of that hash, and both have three or more elements that agree with it on all the
    hash bits consumed above the last trie level (the last level consumes [lastBits] bits:
    1 of 64 for the default fan-out of 8, and 2 of 64 for a fan-out of 4). *)
Definition lastBits : N := match env_build with branch8 => 1 | _ => 2 end.
Definition Overfull (l1 l2 : list T) : Prop :=
  exists a b, In a l1 /\ In b l2 /\ vhash a 0 = vhash b 0 /\
    (3 <= number (fun e => N.eqb (N.shiftr (vhash e 0) lastBits) (N.shiftr (vhash a 0) lastBits)) l1)%nat /\
    (3 <= number (fun e => N.eqb (N.shiftr (vhash e 0) lastBits) (N.shiftr (vhash a 0) lastBits)) l2)%nat /\
    ((3 <= number (fun e => N.eqb (vhash e 0) (vhash a 0)) l1)%nat \/
     (3 <= number (fun e => N.eqb (vhash e 0) (vhash a 0)) l2)%nat).

(** ** Histories of a SetBuilder *)

Inductive sbOp := SbAdd (v : T) | SbRemove (v : T) | SbFinish.

(** Running a history on the model's builder: the builder and the sets returned by the Finish calls. *)
Fixpoint sb_run (b : setBuilder T) (ops : list sbOp) : res (setBuilder T * list (set T)) :=
  match ops with
  | [] => Ok (b, [])
  | SbAdd v :: ops' => b' <- sb_add b v ;; sb_run b' ops'
  | SbRemove v :: ops' => b' <- sb_remove b v ;; sb_run b' ops'
  | SbFinish :: ops' =>
      let '(s, b') := sb_finish b in
      '(b'', out) <- sb_run b' ops' ;; Ok (b'', s :: out)
  end.

(** The same history on a mathematical mutable set (a predicate that depends on values only up to
    value.Equal). *)
Fixpoint sb_math (P : T -> Prop) (ops : list sbOp) : (T -> Prop) * list (T -> Prop) :=
  match ops with
  | [] => (P, [])
  | SbAdd v :: ops' => sb_math (fun w => veq v w = true \/ P w) ops'
  | SbRemove v :: ops' => sb_math (fun w => veq v w = false /\ P w) ops'
  | SbFinish :: ops' => let '(P', out) := sb_math (fun _ => False) ops' in (P', P :: out)
  end.

Definition sbOpOk (vok : T -> Prop) (op : sbOp) : Prop :=
  match op with SbAdd v | SbRemove v => vok v | SbFinish => True end.

(** A builder answers as the mathematical set [P]. *)
Definition SbAnswers (vok : T -> Prop) (b : setBuilder T) (P : T -> Prop) : Prop :=
  (forall v, vok v -> exists x, sb_has b v = Ok x /\ (x = true <-> P v)) /\
  exists l, Lists vok l P /\ sb_count b = Z.of_nat (length l).

(** A set answers as the mathematical set [P]. *)
Definition Answers (vok : T -> Prop) (s : set T) (P : T -> Prop) : Prop :=
  (forall v, vok v -> exists x, s_has s v = Ok x /\ (x = true <-> P v)) /\
  exists l, s_elements s = Ok l /\ Lists vok l P /\ s_count s = Z.of_nat (length l).

End SetSpec.

Arguments sbOp : clear implicits.

Section MapSpec.
Context {E : Env} {X V : Type} {KX : Key X} {ZV : Zero V}.

(** [m.Get(k)] is [(v, true)]. *)
Definition Maps (m : gomap X V) (k : X) (v : V) : Prop := m_get m k = Ok (Some v).
(** [m.Get(k)] is [(zero, false)]. *)
Definition Misses (m : gomap X V) (k : X) : Prop := m_get m k = Ok None.

(** No two keys in the list of pairs are equal. *)
Definition UnequalKeys (l : list (X * V)) : Prop := Unequal (map fst l).

(** The last pair of the list whose key equals [k]. *)
Fixpoint lastFor (l : list (X * V)) (k : X) : option V :=
  match l with
  | [] => None
  | (k', v) :: l' => match lastFor l' k with Some v' => Some v' | None => if veq k' k then Some v else None end
  end.

(** ** Histories of a MapBuilder *)

Inductive mbOp := MbPut (k : X) (v : V) | MbRemove (k : X) | MbFinish.

Fixpoint mb_run (b : mapBuilder X V) (ops : list mbOp) : res (mapBuilder X V * list (gomap X V)) :=
  match ops with
  | [] => Ok (b, [])
  | MbPut k v :: ops' => b' <- mb_put b k v ;; mb_run b' ops'
  | MbRemove k :: ops' => b' <- mb_remove b k ;; mb_run b' ops'
  | MbFinish :: ops' =>
      let '(m, b') := mb_finish b in
      '(b'', out) <- mb_run b' ops' ;; Ok (b'', m :: out)
  end.

(** The same history on a mathematical finite map. *)
Fixpoint mb_math (F : X -> option V) (ops : list mbOp) : (X -> option V) * list (X -> option V) :=
  match ops with
  | [] => (F, [])
  | MbPut k v :: ops' => mb_math (fun j => if veq k j then Some v else F j) ops'
  | MbRemove k :: ops' => mb_math (fun j => if veq k j then None else F j) ops'
  | MbFinish :: ops' => let '(F', out) := mb_math (fun _ => None) ops' in (F', F :: out)
  end.

Definition mbOpOk (kok : X -> Prop) (op : mbOp) : Prop :=
  match op with MbPut k _ => kok k | MbRemove k => kok k | MbFinish => True end.

(** The finite map [F] has exactly the pairs of the list. *)
Definition ListsMap (kok : X -> Prop) (l : list (X * V)) (F : X -> option V) : Prop :=
  (forall kv, In kv l -> kok (fst kv)) /\ UnequalKeys l /\
  forall k v, kok k -> F k = Some v <-> exists k', In (k', v) l /\ veq k' k = true.

Definition MbAnswers (kok : X -> Prop) (b : mapBuilder X V) (F : X -> option V) : Prop :=
  (forall k, kok k -> mb_get b k = Ok (F k) /\ mb_has b k = Ok (match F k with Some _ => true | None => false end)) /\
  exists l, ListsMap kok l F /\ mb_count b = Z.of_nat (length l).

(** A map answers as the finite map [F]. *)
Definition MapAnswers (kok : X -> Prop) (m : gomap X V) (F : X -> option V) : Prop :=
  (forall k, kok k -> m_get m k = Ok (F k)) /\
  exists l, m_entries m = Ok l /\ ListsMap kok l F /\ m_count m = Z.of_nat (length l).
End MapSpec.

Arguments mbOp : clear implicits.

Section MapIteration.
Context {E : Env} {X V : Type}.

(** The pair [(k, v)] is among the entries of the map. *)
Definition Entry (m : gomap X V) (k : X) (v : V) : Prop := exists l, m_entries m = Ok l /\ In (k, v) l.

Fixpoint MapStaysDone (n : nat) (it : mapIter (X := X) (V := V)) : Prop :=
  match n with
  | O => True
  | S n => exists it', mi_next it = Ok (false, it') /\ MapStaysDone n it'
  end.

(** Calling Next and Entry alternately gives the pairs [l], and then Next reports false for ever. *)
Inductive MapYields : mapIter (X := X) (V := V) -> list (X * V) -> Prop :=
| mapYields_end it : (forall n, MapStaysDone n it) -> MapYields it []
| mapYields_step it it' kv l :
    mi_next it = Ok (true, it') -> mi_entry it' = Some kv -> MapYields it' l -> MapYields it (kv :: l).
End MapIteration.
