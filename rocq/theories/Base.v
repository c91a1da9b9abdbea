(** * Base: result monad, list updates and small list lemmas.

    Nothing here models a particular line of /repo; it is the vocabulary the
    models are written in. *)
From Coq Require Export List Arith ZArith NArith Lia Bool Permutation.
Export ListNotations.
Set Implicit Arguments.

(** Outcome of running Go code: a normal result, a Go panic, or the model's own
    recursion fuel running out (never a normal-looking value). *)
Inductive res (A : Type) : Type :=
| Ok (a : A)
| Panic
| Fuel.
Arguments Ok {A} _.
Arguments Panic {A}.
Arguments Fuel {A}.

Definition bind {A B} (m : res A) (k : A -> res B) : res B :=
  match m with Ok a => k a | Panic => Panic | Fuel => Fuel end.

Notation "x <- m ;; k" := (bind m (fun x => k))
  (at level 61, m at next level, right associativity).
Notation "' p <- m ;; k" := (bind m (fun x => match x with p => k end))
  (at level 61, p pattern, m at next level, right associativity).

Definition rmap {A B} (f : A -> B) (m : res A) : res B :=
  match m with Ok a => Ok (f a) | Panic => Panic | Fuel => Fuel end.

(** Left fold in the result monad (a Go [for range] loop whose body may panic). *)
Fixpoint foldM {A S} (f : S -> A -> res S) (s : S) (l : list A) : res S :=
  match l with
  | [] => Ok s
  | a :: l' => bind (f s a) (fun s' => foldM f s' l')
  end.

(** [l[i] = x] on a Go array: out-of-range updates do not happen in the model's
    uses (indices are proved in range); they leave the list unchanged. *)
Fixpoint set_nth {A} (l : list A) (i : nat) (x : A) : list A :=
  match l, i with
  | [], _ => []
  | _ :: l', O => x :: l'
  | a :: l', S i' => a :: set_nth l' i' x
  end.

Lemma set_nth_length {A} (l : list A) i x : length (set_nth l i x) = length l.
Proof. revert i; induction l as [|a l IH]; intros [|i]; simpl; auto. Qed.

Lemma nth_error_set_nth_eq {A} (l : list A) i x :
  i < length l -> nth_error (set_nth l i x) i = Some x.
Proof.
  revert i; induction l as [|a l IH]; intros [|i] H; simpl in *; try lia; auto.
  apply IH; lia.
Qed.

Lemma nth_error_set_nth_ne {A} (l : list A) i j x :
  i <> j -> nth_error (set_nth l i x) j = nth_error l j.
Proof.
  revert i j; induction l as [|a l IH]; intros [|i] [|j] H; simpl in *; try lia; auto.
Qed.

Lemma nth_set_nth_eq {A} (l : list A) i x d :
  i < length l -> nth i (set_nth l i x) d = x.
Proof.
  revert i; induction l as [|a l IH]; intros [|i] H; simpl in *; try lia; auto.
  apply IH; lia.
Qed.

Lemma nth_set_nth_ne {A} (l : list A) i j x d :
  i <> j -> nth j (set_nth l i x) d = nth j l d.
Proof.
  revert i j; induction l as [|a l IH]; intros [|i] [|j] H; simpl in *; try lia; auto.
Qed.

Lemma set_nth_split {A} (l : list A) i x d :
  i < length l ->
  exists l1 l2, l = l1 ++ nth i l d :: l2 /\ set_nth l i x = l1 ++ x :: l2 /\ length l1 = i.
Proof.
  revert i; induction l as [|a l IH]; intros [|i] H; simpl in *; try lia.
  - exists [], l; auto.
  - destruct (IH i) as (l1 & l2 & E1 & E2 & E3); [lia|].
    exists (a :: l1), l2. simpl. rewrite <- E1, E2, E3. auto.
Qed.

Lemma set_nth_same {A} (l : list A) i d :
  i < length l -> set_nth l i (nth i l d) = l.
Proof.
  revert i; induction l as [|a l IH]; intros [|i] H; simpl in *; try lia; auto.
  f_equal; apply IH; lia.
Qed.

Lemma list_ext_nth {A} (l1 l2 : list A) d :
  length l1 = length l2 -> (forall i, i < length l1 -> nth i l1 d = nth i l2 d) -> l1 = l2.
Proof.
  revert l2; induction l1 as [|a l1 IH]; intros [|b l2] HL H; simpl in *; try lia; auto.
  f_equal.
  - apply (H 0); lia.
  - apply IH; [lia|]. intros i Hi. apply (H (S i)); lia.
Qed.

Lemma bind_ok {A B} (m : res A) (k : A -> res B) b :
  bind m k = Ok b <-> exists a, m = Ok a /\ k a = Ok b.
Proof.
  destruct m as [a| |]; simpl; split.
  - intros H; exists a; auto.
  - intros (a' & E & H); inversion E; subst; auto.
  - discriminate.
  - intros (a' & E & H); discriminate.
  - discriminate.
  - intros (a' & E & H); discriminate.
Qed.

Lemma foldM_app {A S} (f : S -> A -> res S) s l1 l2 :
  foldM f s (l1 ++ l2) = bind (foldM f s l1) (fun s' => foldM f s' l2).
Proof.
  revert s; induction l1 as [|a l1 IH]; intros s; simpl; auto.
  destruct (f s a); simpl; auto.
Qed.

(** Sum of a list of integers (used to state counts of children). *)
Definition sumZ (l : list Z) : Z := fold_right Z.add 0%Z l.
