(** * Iter: the trie iterator of internal/pkg/tree/packer_iter.go. *)
From Verif Require Import Base Bits Env EnvFacts Node NodeWf.

(** An iterator: empty.go (the value of [Empty()]), iterator/slice.go:3-10 and
    packer_iter.go:10-13.
    [ISlice l k] is a SliceIterator with [slice = l] and [index = k - 1].
    [IPacker p i] is a packerIterator with [*p = stack[0]] (the children not yet visited)
    and current child iterator [i].
    Simplification: the rest of the shared buffer [stack[1:]] is not represented; it is scratch
    space handed to the one live child iterator, which owns it until it is replaced
    (IterBuf.v models the shared buffer; theorem C51_buffer). *)
Inductive iter (T : Type) : Type :=
| IEmpty
| ISlice (l : list T) (k : nat)
| IPacker (p : list (option (node T))) (i : iter T).
Arguments IEmpty {T}.
Arguments ISlice {T} _ _.
Arguments IPacker {T} _ _.

Section Iter.
Context {E : Env} {T : Type} {K : Key T}.
Notation node := (node T).
Notation iter := (iter T).

(** Iterator: leaf1.go:120-123, leaf2.go:164-166, twig.go:212-214, branch.go:203-205 with
    packer.go:49-51 and packer_iter.go:15-19. *)
Definition iterator (n : node) : iter :=
  match n with
  | Leaf1 a => ISlice [a] 0
  | Leaf2 a b => ISlice [a; b] 0
  | Twig l => ISlice l 0
  | Branch _ data => IPacker data IEmpty
  end.

(** Empty: leaf1.go:97-99, leaf2.go:130-132, twig.go:168-170, branch.go:155-157. *)
Definition isEmpty (n : node) : bool :=
  match n with Twig [] => true | _ => false end.

(** packer_iter.go:26-29: drop children up to and including the first non-empty one. *)
Fixpoint nextChild (p : list (option node)) : option (node * list (option node)) :=
  match p with
  | [] => None
  | Some c :: p' => if isEmpty c then nextChild p' else Some (c, p')
  | None :: p' => nextChild p'
  end.

(** Next: empty.go, iterator/slice.go:12-15, packer_iter.go:21-35. *)
Fixpoint inext (fuel : nat) (it : iter) : res (bool * iter) :=
  match fuel with
  | O => Fuel
  | S k =>
      match it with
      | IEmpty => Ok (false, IEmpty)
      | ISlice l i => Ok ((i <? length l)%nat, ISlice l (S i))
      | IPacker p i =>
          '(b, i') <- inext k i ;;
          if (b : bool) then Ok (true, IPacker p i')
          else
            match nextChild p with
            | None => Ok (false, IPacker [] i')
            | Some (c, p') => '(b, i'') <- inext k (iterator c) ;; Ok (b, IPacker p' i'')
            end
      end
  end.

(** Value: empty.go, iterator/slice.go:17-19, packer_iter.go:37-39. A slice index out of
    range (before the first or after the last [Next]) panics. *)
Fixpoint ivalue (it : iter) : res T :=
  match it with
  | IEmpty => Panic
  | ISlice l O => Panic
  | ISlice l (S i) => match nth_error l i with Some v => Ok v | None => Panic end
  | IPacker _ i => ivalue i
  end.

(** [for i.Next() { use i.Value() }]: the values seen, in order. *)
Fixpoint drain (fuel inner : nat) (it : iter) : res (list T * iter) :=
  match fuel with
  | O => Fuel
  | S k =>
      '(b, it') <- inext inner it ;;
      if (b : bool) then
        v <- ivalue it' ;;
        '(vs, it'') <- drain k inner it' ;;
        Ok (v :: vs, it'')
      else Ok ([], it')
  end.

End Iter.

Section IterFacts.
Local Opaque maxTreeDepth fanout fb.
Context {E : Env} {T : Type} {K : Key T} {vok : T -> Prop} {KO : KeyOk K vok}.
Notation node := (node T).
Notation wf := (wf vok).
Notation iter := (iter T).

(** The values an iterator has yet to yield. *)
Fixpoint remaining (it : iter) : list T :=
  match it with
  | IEmpty => []
  | ISlice l k => skipn k l
  | IPacker p i => remaining i ++ flat_map elemso p
  end.

(** Iterators over well-formed nodes at depth [d]. *)
Inductive iok : nat -> iter -> Prop :=
| iok_empty d : iok d IEmpty
| iok_slice d l k : iok d (ISlice l k)
| iok_packer d p i : d < maxTreeDepth ->
    (forall c, In (Some c) p -> wf (S d) c) -> iok (S d) i -> iok d (IPacker p i).

Lemma iok_iterator d n : wf d n -> iok d (iterator n).
Proof.
  intros H. destruct n; simpl; try constructor.
  - inversion H; auto.
  - inversion H as [| | |d' m' data' Hd Hlen1 Hm1 Hch1 Hp1 Hl1]; subst. intros c Hc.
    apply In_nth with (d := None) in Hc as (i & _ & Ei). eapply Hch1; eauto.
  - constructor.
Qed.

Lemma remaining_iterator n : remaining (iterator n) = elems n.
Proof. destruct n; auto. rewrite elems_branch. reflexivity. Qed.

Lemma nextChild_spec p d :
  (forall c, In (Some c) p -> wf d c) ->
  match nextChild p with
  | None => flat_map elemso p = []
  | Some (c, p') => flat_map elemso p = elems c ++ flat_map elemso p' /\ wf d c /\
      (forall c, In (Some c) p' -> wf d c)
  end.
Proof.
  induction p as [|[c|] p IH]; intros H; simpl; auto.
  - assert (Hc : wf d c) by (apply H; left; auto).
    assert (isEmpty c = false) as ->.
    { destruct c as [| |[|a l]|]; auto. inversion Hc; subst. simpl in *; lia. }
    split; auto. split; auto. intros; apply H; right; auto.
  - specialize (IH (fun c Hc => H c (or_intror Hc))). auto.
Qed.

Lemma inext_spec fuel : forall d it, iok d it -> maxTreeDepth - d < fuel ->
  exists b it', inext fuel it = Ok (b, it') /\ iok d it' /\
    match remaining it with
    | [] => b = false /\ remaining it' = []
    | x :: xs => b = true /\ remaining it' = xs /\ ivalue it' = Ok x
    end.
Proof.
  induction fuel as [|fuel IH]; intros d it Hok Hf; [lia|].
  destruct Hok as [d|d l k|d p i Hd Hp Hi]; cbn [inext].
  - do 2 eexists. split; [reflexivity|]. split; [constructor|]. simpl; auto.
  - do 2 eexists. split; [reflexivity|]. split; [constructor|]. cbn [remaining ivalue].
    destruct (Nat.ltb_spec k (length l)) as [Hk|Hk].
    + destruct (nth_error l k) as [x|] eqn:Ex.
      2:{ apply nth_error_None in Ex. lia. }
      assert (skipn k l = x :: skipn (S k) l) as ->.
      { clear - Ex. revert k Ex. induction l as [|a l IH]; intros [|k] Ex; simpl in *; try discriminate.
        - congruence.
        - apply IH; auto. }
      auto.
    + rewrite !skipn_all2 by lia. auto.
  - destruct (IH (S d) i) as (b & i' & E1 & Hok' & Hr); auto; try lia.
    rewrite E1. cbn [bind remaining]. destruct (remaining i) as [|x xs]; destruct Hr as [-> Hr].
    + pose proof (nextChild_spec p (S d) Hp) as Hn.
      destruct (nextChild p) as [[c p']|].
      * destruct Hn as (Hn & Hc & Hp').
        destruct (IH (S d) (iterator c)) as (b2 & i2 & E2 & Hok2 & Hr2).
        { apply iok_iterator; auto. }
        { lia. }
        rewrite E2. cbn [bind]. rewrite remaining_iterator in Hr2.
        destruct (elems c) as [|x xs] eqn:Ec; [apply wf_nonnil in Hc; congruence|].
        destruct Hr2 as (-> & Hr2 & Hv). do 2 eexists. split; [reflexivity|].
        split; [constructor; auto|]. simpl. rewrite Hn. simpl. rewrite Hr2. auto.
      * do 2 eexists. split; [reflexivity|]. split.
        { constructor; auto. intros c []. }
        simpl. rewrite Hn, Hr. auto.
    + destruct Hr as (Hr & Hv). do 2 eexists. split; [reflexivity|].
      split; [constructor; auto|]. simpl. rewrite Hr. auto.
Qed.

Lemma drain_spec inner d : maxTreeDepth - d < inner -> forall fuel it, iok d it -> length (remaining it) < fuel ->
  exists it', drain fuel inner it = Ok (remaining it, it') /\ iok d it' /\ remaining it' = [].
Proof.
  intros Hin. induction fuel as [|fuel IH]; intros it Hok Hf; [lia|]. cbn [drain].
  destruct (inext_spec inner d it Hok Hin) as (b & it' & E1 & Hok' & Hr). rewrite E1. cbn [bind].
  destruct (remaining it) as [|x xs].
  - destruct Hr as [-> Hr]. eauto.
  - destruct Hr as (-> & Hr & Hv). rewrite Hv. cbn [bind]. simpl in Hf.
    destruct (IH it' Hok') as (it2 & E2 & Hok2 & Hr2); [rewrite Hr; lia|].
    rewrite E2. cbn [bind]. rewrite Hr. eauto.
Qed.

End IterFacts.
