(** * IterBuf: the shared buffer of the trie iterators.

    An iterator over a branch keeps the children it has yet to visit in a cell of a buffer, and hands the rest of the buffer to the
    iterator over the current child. Here the buffers are arrays in a store, so that cells can be overwritten;
    Iter.v keeps the children inside the iterator. The two agree (theorem C51). *)
From Verif Require Import Base Bits Env EnvFacts Node NodeWf Iter Tree SetApi.

Section IterBuf.
Context {E : Env} {T : Type}.
(** How much more than needed [append] allocates, as a function of the address. *)
Context (grow : nat -> nat).
Notation node := (node T).
Notation cell := (list (option node)).

(** The arrays behind all slices of type [[][]node[T]], by address; a cell is a slice [[]node[T]], here its elements (nobody
    writes to the array of a branch while it is iterated over: C17, C18). *)
Definition bstore := list (list cell).
(** A slice of type [[][]node[T]]. *)
Record bslice := mkBS { bs_arr : nat; bs_off : nat; bs_len : nat; bs_cap : nat }.

Definition readCell (h : bstore) (a o : nat) : cell := nth o (nth a h []) [].
Definition writeCell (h : bstore) (a o : nat) (x : cell) : bstore := set_nth h a (set_nth (nth a h []) o x).

(** [append(b, x)]: in place if there is capacity, else in a new array. *)
Definition bappend (h : bstore) (b : bslice) (x : cell) : bstore * bslice :=
  let '(mkBS a o len cap) := b in
  if len <? cap then (writeCell h a (o + len) x, mkBS a o (S len) cap)
  else
    let more := grow (length h) in
    (h ++ [firstn len (skipn o (nth a h [])) ++ x :: repeat [] more], mkBS (length h) 0 (S len) (S len + more)).

(** Iterators: empty.go, iterator/slice.go:3-10, and packer_iter.go:10-13 [packerIterator] with its stack. *)
Inductive biter : Type :=
| BEmpty
| BSlice (l : list T) (k : nat)
| BPacker (stack : bslice) (i : biter).

(** Iterator(buf): leaf1.go:120-123, leaf2.go:164-166, twig.go:212-214, branch.go:203-205 with
    packer.go:49-51 and packer_iter.go:15-19 [newPackerIterator]. *)
Definition biterator (h : bstore) (buf : bslice) (n : node) : bstore * biter :=
  match n with
  | Leaf1 a => (h, BSlice [a] 0)
  | Leaf2 a b => (h, BSlice [a; b] 0)
  | Twig l => (h, BSlice l 0)
  | Branch _ data => let '(h, st) := bappend h buf data in (h, BPacker st BEmpty)
  end.

(** Next: empty.go:12-14, iterator/slice.go:12-15, packer_iter.go:21-35. The loop of lines 26-33 moves the slice in
    [stack[0]] forward; its last value is written. *)
Fixpoint bnext (fuel : nat) (it : biter) (h : bstore) : res (bool * biter * bstore) :=
  match fuel with
  | O => Fuel
  | S k =>
      match it with
      | BEmpty => Ok (false, BEmpty, h)
      | BSlice l i => Ok (i <? length l, BSlice l (S i), h)
      | BPacker st i =>
          '(b, i, h) <- bnext k i h ;;
          if (b : bool) then Ok (true, BPacker st i, h)
          else
            let '(mkBS a o len cap) := st in
            match len with
            | O => Panic                                              (* stack[0] *)
            | S len =>
                match nextChild (readCell h a o) with
                | None => Ok (false, BPacker st i, writeCell h a o [])
                | Some (c, p) =>
                    let h := writeCell h a o p in
                    let '(h, i) := biterator h (mkBS a (S o) len (pred cap)) c in    (* i.stack[1:] *)
                    '(b, i, h) <- bnext k i h ;;
                    Ok (b, BPacker st i, h)
                end
            end
      end
  end.

(** Value: empty.go:16-18, iterator/slice.go:17-19, packer_iter.go:37-39. *)
Fixpoint bvalue (it : biter) : res T :=
  match it with
  | BEmpty => Panic
  | BSlice l O => Panic
  | BSlice l (S i) => match nth_error l i with Some v => Ok v | None => Panic end
  | BPacker _ i => bvalue i
  end.

(** tree.go:12-15 [packedIteratorBuf]: an empty slice with room for [depth] cells ([bits.Len64] is [N.size]). *)
Definition bufDepth (count : Z) : nat := N.to_nat ((N.size (Z.to_N count) + 1) * 3 / 2).

(** tree.go:106-112 [Tree.Iterator], called by set.go:64-66 [Range]. *)
Definition brange (s : set T) (h : bstore) : biter * bstore :=
  match t_root (s_tree s) with
  | None => (BEmpty, h)
  | Some n =>
      let depth := bufDepth (t_count (s_tree s)) in
      let '(h, i) := biterator (h ++ [repeat [] depth]) (mkBS (length h) 0 0 depth) n in
      (i, h)
  end.

(** ** Programs that use any number of iterators *)

(** Calls in a program: Range of a set makes the next iterator, Next and Value of the iterator with a number. *)
Inductive iop := ORange (s : set T) | ONext (j : nat) | OValue (j : nat).
(** What a call answers. *)
Inductive ians := AMade | ANext (r : res bool) | AValue (r : res T).

(** A program with buffers. A call on an iterator that does not exist answers Panic. *)
Fixpoint bexec (ops : list iop) (its : list biter) (h : bstore) : list ians :=
  match ops with
  | [] => []
  | ORange s :: ops => let '(i, h) := brange s h in AMade :: bexec ops (its ++ [i]) h
  | ONext j :: ops =>
      match nth_error its j with
      | None => ANext Panic :: bexec ops its h
      | Some i =>
          match bnext (S treeFuel) i h with
          | Ok (b, i, h) => ANext (Ok b) :: bexec ops (set_nth its j i) h
          | Panic => [ANext Panic]
          | Fuel => [ANext Fuel]
          end
      end
  | OValue j :: ops => AValue (match nth_error its j with Some i => bvalue i | None => Panic end) :: bexec ops its h
  end.

(** The same with the iterators of Iter.v, each on its own. *)
Fixpoint iexec (ops : list iop) (its : list (iter T)) : list ians :=
  match ops with
  | [] => []
  | ORange s :: ops => AMade :: iexec ops (its ++ [s_range s])
  | ONext j :: ops =>
      match nth_error its j with
      | None => ANext Panic :: iexec ops its
      | Some i =>
          match i_next i with
          | Ok (b, i) => ANext (Ok b) :: iexec ops (set_nth its j i)
          | Panic => [ANext Panic]
          | Fuel => [ANext Fuel]
          end
      end
  | OValue j :: ops => AValue (match nth_error its j with Some i => ivalue i | None => Panic end) :: iexec ops its
  end.

(** ** Agreement *)

(** Cells in the order in which nested iterators use them. *)
Definition before (a o a' o' : nat) : Prop := a < a' \/ (a = a' /\ o < o').

(** The iterator [bi] with buffers in [h] stands for [it]; its cells do not come before [(a, o)]. *)
Fixpoint rep (h : bstore) (a o : nat) (it : iter T) (bi : biter) : Prop :=
  match it, bi with
  | IEmpty, BEmpty => True
  | ISlice l k, BSlice l' k' => l = l' /\ k = k'
  | IPacker p i, BPacker (mkBS a' o' len cap) bi =>
      len = 1 /\ 1 <= cap /\ a' < length h /\ o' + cap <= length (nth a' h []) /\ ~ before a' o' a o /\
      readCell h a' o' = p /\ rep h a' (S o') i bi
  | _, _ => False
  end.

(** The arrays of an iterator. *)
Fixpoint arrs (bi : biter) : list nat :=
  match bi with BPacker st bi => bs_arr st :: arrs bi | _ => [] end.

(** From [h] to [h'] only cells of the arrays [A] that do not come before [(a, o)] have changed, and new arrays have come. *)
Definition keeps (A : list nat) (a o : nat) (h h' : bstore) : Prop :=
  length h <= length h' /\
  forall x, x < length h ->
    length (nth x h' []) = length (nth x h []) /\
    forall y, (~ In x A \/ before x y a o) -> readCell h' x y = readCell h x y.

Definition within (A : list nat) (h : bstore) (B : list nat) : Prop := forall x, In x B -> In x A \/ length h <= x.

Lemma keeps_refl A a o h : keeps A a o h h.
Proof. split; auto. Qed.

Lemma keeps_trans A B a o h1 h2 h3 : keeps A a o h1 h2 -> keeps B a o h2 h3 -> within A h1 B -> keeps A a o h1 h3.
Proof.
  intros [L1 H1] [L2 H2] HW. split; [lia|]. intros x Hx. destruct (H1 x Hx) as [N1 R1]. destruct (H2 x) as [N2 R2]; [lia|].
  split; [congruence|]. intros y Hy. rewrite R2, R1; auto. destruct Hy as [Hy|Hy]; auto. left. intros HB. destruct (HW x HB); [auto|lia].
Qed.

Lemma keeps_weaken A a o b p h h' : keeps A b p h h' -> ~ before b p a o -> keeps A a o h h'.
Proof.
  intros [L H] Hb. split; auto. intros x Hx. destruct (H x Hx) as [N R]. split; auto. intros y [Hy|Hy]; apply R; auto. right. unfold before in *. lia.
Qed.

Lemma keeps_incl A B a o h h' : keeps A a o h h' -> incl A B -> keeps B a o h h'.
Proof.
  intros [L H] Hb. split; auto. intros x Hx. destruct (H x Hx) as [N R]. split; auto. intros y [Hy|Hy]; apply R; auto.
Qed.

Lemma write_length h a o x : length (writeCell h a o x) = length h.
Proof. apply set_nth_length. Qed.

Lemma write_array h a o x b : length (nth b (writeCell h a o x) []) = length (nth b h []).
Proof.
  unfold writeCell. destruct (Nat.eq_dec a b) as [<-|Hn]; [|rewrite nth_set_nth_ne; auto].
  destruct (le_lt_dec (length h) a); [rewrite !nth_overflow; auto; rewrite set_nth_length; auto|].
  rewrite nth_set_nth_eq by auto. apply set_nth_length.
Qed.

Lemma read_write h a o x : a < length h -> o < length (nth a h []) -> readCell (writeCell h a o x) a o = x.
Proof. intros H1 H2. unfold readCell, writeCell. rewrite nth_set_nth_eq by auto. apply nth_set_nth_eq. auto. Qed.

Lemma read_write_ne h a o x b p : (a, o) <> (b, p) -> readCell (writeCell h a o x) b p = readCell h b p.
Proof.
  intros Hn. unfold readCell, writeCell. destruct (Nat.eq_dec a b) as [<-|Ha]; [|rewrite nth_set_nth_ne; auto].
  destruct (le_lt_dec (length h) a); [rewrite (nth_overflow (set_nth _ _ _)), (nth_overflow h); auto; rewrite set_nth_length; auto|].
  rewrite nth_set_nth_eq by auto. apply nth_set_nth_ne. congruence.
Qed.

Lemma keeps_write h a o x : keeps [a] a o h (writeCell h a o x).
Proof.
  split; [rewrite write_length; auto|]. intros b Hb. split; [apply write_array|]. intros y Hy. apply read_write_ne. intros [= -> ->].
  destruct Hy as [Hy|Hy]; [apply Hy; left; auto|unfold before in Hy; lia].
Qed.

Lemma keeps_new h l a o : keeps [] a o h (h ++ [l]).
Proof.
  split; [rewrite app_length; lia|]. intros x Hx. unfold readCell. rewrite app_nth1 by auto. auto.
Qed.

(** An iterator is not affected by changes elsewhere. *)
Lemma rep_keeps it : forall bi h h' a o A b p, rep h a o it bi -> keeps A b p h h' ->
  (forall x, In x (arrs bi) -> ~ In x A) -> rep h' a o it bi.
Proof.
  induction it as [|l k|q i IH]; intros [|l' k'|[a' o' len cap] bi] h h' a o A b p; cbn [rep arrs]; try tauto. cbn [bs_arr].
  intros (H1 & H2 & H3 & H4 & H5 & H6 & H7) HK HA. pose proof HK as [L HK']. destruct (HK' a' H3) as [N R].
  split; [auto|]. split; [auto|]. split; [lia|]. split; [lia|]. split; [auto|]. split.
  - rewrite R; [auto|]. left. apply HA. left; auto.
  - eapply IH; [exact H7|exact HK|]. intros x Hx. apply HA. right; auto.
Qed.

Lemma rep_low it bi h a o b p : rep h b p it bi -> ~ before b p a o -> rep h a o it bi.
Proof.
  destruct it as [|l k|q i], bi as [|l' k'|[a' o' len cap] bi]; cbn [rep]; try tauto.
  intros (H1 & H2 & H3 & H4 & H5 & H6 & H7) Hb. repeat (split; auto). unfold before in *. lia.
Qed.

(** The write to an iterator's own cell does not affect its child. *)
Lemma rep_write it : forall bi h a o b p x, rep h b p it bi -> before a o b p -> rep (writeCell h a o x) b p it bi.
Proof.
  induction it as [|l k|q i IH]; intros [|l' k'|[a' o' len cap] bi] h a o b p x; cbn [rep]; try tauto.
  intros (H1 & H2 & H3 & H4 & H5 & H6 & H7) Hb. rewrite write_length, write_array.
  repeat (split; auto).
  - rewrite read_write_ne; auto. intros [= -> ->]. contradiction.
  - apply IH; auto. unfold before in *. lia.
Qed.

Lemma iterator_rep h a o cap n : a < length h -> (cap = 0 \/ o + cap <= length (nth a h [])) ->
  forall h' bi, biterator h (mkBS a o 0 cap) n = (h', bi) ->
  rep h' a o (iterator n) bi /\ keeps [a] a o h h' /\ within [a] h (arrs bi).
Proof.
  intros Ha Hc h' bi. destruct n as [x|x y|l|m data]; cbn [biterator iterator];
    try (intros [= <- <-]; split; [cbn; auto|split; [apply keeps_refl|intros ? []]]).
  unfold bappend. destruct (0 <? cap) eqn:El; intros [= <- <-].
  - apply Nat.ltb_lt in El. rewrite Nat.add_0_r. cbn [rep]. rewrite write_length, write_array. split; [|split].
    + split; [auto|]. split; [lia|]. split; [auto|]. split; [lia|]. split; [unfold before; lia|]. split; [|auto].
      apply read_write; [auto|lia].
    + apply keeps_write.
    + intros z [<-|[]]. left; left; auto.
  - apply Nat.ltb_ge in El. cbn [rep firstn app]. split; [|split].
    + rewrite app_length, app_nth2, Nat.sub_diag by lia. cbn [length nth]. rewrite repeat_length.
      split; [auto|]. split; [lia|]. split; [lia|]. split; [lia|]. split; [unfold before; lia|]. split; [|auto].
      unfold readCell. rewrite app_nth2, Nat.sub_diag by lia. reflexivity.
    + eapply keeps_incl; [apply keeps_new|]. intros ? [].
    + intros z [<-|[]]. right. cbn. lia.
Qed.

Lemma next_rep fuel : forall it bi h a o, rep h a o it bi ->
  match inext fuel it with
  | Ok (b, it') => exists bi' h', bnext fuel bi h = Ok (b, bi', h') /\ rep h' a o it' bi' /\
      keeps (arrs bi) a o h h' /\ within (arrs bi) h (arrs bi')
  | Panic => bnext fuel bi h = Panic
  | Fuel => bnext fuel bi h = Fuel
  end.
Proof.
  induction fuel as [|fuel IH]; intros it bi h a o H; [reflexivity|]. cbn [inext bnext].
  destruct it as [|l k|q i], bi as [|l' k'|[a' o' len cap] bi]; cbn [rep] in H; try contradiction.
  - exists BEmpty, h. split; auto. split; [exact Logic.I|]. split; [apply keeps_refl|]. intros ? [].
  - destruct H as [<- <-]. exists (BSlice l (S k)), h. split; auto. split; [cbn; auto|]. split; [apply keeps_refl|]. intros ? [].
  - destruct H as (-> & H2 & H3 & H4 & H5 & H6 & H7). specialize (IH) as IH'. specialize (IH' i bi h a' (S o') H7).
    destruct (inext fuel i) as [[b i']| |]; [|rewrite IH'; reflexivity..].
    destruct IH' as (bi' & h' & E1 & R1 & K1 & W1). rewrite E1. cbn [bind].
    pose proof K1 as [L1 K1']. destruct (K1' a' H3) as [N1 C1].
    assert (C0 : readCell h' a' o' = q) by (rewrite C1; [auto|right; unfold before; lia]).
    assert (KA : keeps (a' :: arrs bi) a o h h').
    { eapply keeps_weaken; [eapply keeps_incl; [exact K1|]|].
      - intros z Hz. right; auto.
      - unfold before in *. lia. }
    destruct b.
    + exists (BPacker (mkBS a' o' 1 cap) bi'), h'. split; auto. split; [|split].
      * cbn [rep]. repeat (split; auto); lia.
      * exact KA.
      * intros z [<-|Hz]; [left; left; auto|]. destruct (W1 z Hz); [left; right; auto|auto].
    + rewrite C0. destruct (nextChild q) as [[c q']|] eqn:En.
      * destruct (biterator (writeCell h' a' o' q') (mkBS a' (S o') 0 (pred cap)) c) as [h2 ci] eqn:Eb.
        destruct (iterator_rep (writeCell h' a' o' q') a' (S o') (pred cap) c) with (h' := h2) (bi := ci) as (R2 & K2 & W2); auto.
        { rewrite write_length. lia. }
        { rewrite write_array. lia. }
        pose proof K2 as [L2 K2']. rewrite write_length in L2, K2'.
        destruct (K2' a') as [N2 C2]; [lia|]. rewrite write_array in N2.
        specialize (IH (iterator c) ci h2 a' (S o') R2).
        destruct (inext fuel (iterator c)) as [[b i'']| |]; [|rewrite IH; reflexivity..].
        destruct IH as (ci' & h3 & E3 & R3 & K3 & W3). rewrite E3. cbn [bind].
        pose proof K3 as [L3 K3']. destruct (K3' a') as [N3 C3]; [lia|].
        exists (BPacker (mkBS a' o' 1 cap) ci'), h3. split; auto. split; [|split].
        -- cbn [rep]. split; [auto|]. split; [auto|]. split; [lia|]. split; [lia|]. split; [auto|]. split; [|auto].
           rewrite C3 by (right; unfold before; lia). rewrite C2 by (right; unfold before; lia). apply read_write; lia.
        -- assert (KW : keeps [a'] a o h' (writeCell h' a' o' q')) by (eapply keeps_weaken; [apply keeps_write|auto]).
           assert (K2a : keeps [a'] a o (writeCell h' a' o' q') h2) by (eapply keeps_weaken; [exact K2|unfold before in *; lia]).
           assert (K3a : keeps (arrs ci) a o h2 h3) by (eapply keeps_weaken; [exact K3|unfold before in *; lia]).
           eapply keeps_trans; [eapply keeps_trans; [eapply keeps_trans; [exact KA|exact KW|]|exact K2a|]|exact K3a|].
           ++ intros z [<-|[]]. left; left; auto.
           ++ intros z [<-|[]]. left; left; auto.
           ++ intros z Hz. destruct (W2 z Hz) as [[<-|[]]|Hl]; [left; left; auto|]. rewrite write_length in Hl. right. lia.
        -- intros z [<-|Hz]; [left; left; auto|]. destruct (W3 z Hz) as [Hz'|Hz']; [|right; lia].
           destruct (W2 z Hz') as [[<-|[]]|Hl]; [left; left; auto|]. rewrite write_length in Hl. right. lia.
      * exists (BPacker (mkBS a' o' 1 cap) bi'), (writeCell h' a' o' []). split; auto. split; [|split].
        -- cbn [rep]. rewrite write_length, write_array. split; [auto|]. split; [auto|]. split; [lia|]. split; [lia|]. split; [auto|].
           split; [apply read_write; lia|]. apply rep_write; auto. unfold before; lia.
        -- eapply keeps_trans; [exact KA|eapply keeps_weaken; [apply keeps_write|auto]|]. intros z [<-|[]]. left; left; auto.
        -- intros z [<-|Hz]; [left; left; auto|]. destruct (W1 z Hz); [left; right; auto|auto].
Qed.

Lemma value_rep it : forall bi h a o, rep h a o it bi -> bvalue bi = ivalue it.
Proof.
  induction it as [|l k|q i IH]; intros [|l' k'|[a' o' len cap] bi] h a o; cbn [rep bvalue ivalue]; try tauto.
  - intros [-> ->]. auto.
  - intros (_ & _ & _ & _ & _ & _ & H). eauto.
Qed.

Lemma rep_arrs it : forall bi h a o x, rep h a o it bi -> In x (arrs bi) -> x < length h.
Proof.
  induction it as [|l k|q i IH]; intros [|l' k'|[a' o' len cap] bi] h a o x; cbn [rep arrs]; try tauto; cbn [In]; try tauto.
  intros (_ & _ & H3 & _ & _ & _ & H). intros [<-|Hx]; auto. eapply IH; eauto.
Qed.

(** All iterators of a program stand for those without buffers and have arrays of their own. *)
Definition pool (h : bstore) (its : list (iter T)) (bis : list biter) : Prop :=
  length its = length bis /\
  (forall j it bi, nth_error its j = Some it -> nth_error bis j = Some bi -> rep h 0 0 it bi) /\
  (forall j k b c x, j <> k -> nth_error bis j = Some b -> nth_error bis k = Some c -> In x (arrs b) -> ~ In x (arrs c)).

Lemma range_rep s h : rep (snd (brange s h)) 0 0 (s_range s) (fst (brange s h)) /\
  keeps [] 0 0 h (snd (brange s h)) /\ within [] h (arrs (fst (brange s h))).
Proof.
  unfold brange, s_range, t_iterator. destruct (t_root (s_tree s)) as [n|].
  2: { cbn. split; auto. split; [apply keeps_refl|intros ? []]. }
  set (d := bufDepth _). destruct (biterator _ _ n) as [h' bi] eqn:Eb. cbn [fst snd].
  destruct (iterator_rep (h ++ [repeat [] d]) (length h) 0 d n) with (h' := h') (bi := bi) as (R & K & W); auto.
  { rewrite app_length. cbn. lia. }
  { right. rewrite app_nth2, Nat.sub_diag by lia. cbn. rewrite repeat_length. lia. }
  split; [eapply rep_low; [exact R|unfold before; lia]|]. split.
  - eapply keeps_trans; [apply keeps_new|eapply keeps_weaken; [exact K|unfold before; lia]|]. intros x [<-|[]]. right. lia.
  - intros x Hx. right. destruct (W x Hx) as [[<-|[]]|Hl]; [lia|]. rewrite app_length in Hl. lia.
Qed.

Lemma pool_next h its bis j it bi h' it' bi' : pool h its bis -> nth_error its j = Some it -> nth_error bis j = Some bi ->
  rep h' 0 0 it' bi' -> keeps (arrs bi) 0 0 h h' -> within (arrs bi) h (arrs bi') -> pool h' (set_nth its j it') (set_nth bis j bi').
Proof.
  intros (HL & HR & HD) Ei Eb R K W. split; [rewrite !set_nth_length; auto|].
  assert (Lj : j < length its) by (apply nth_error_Some; congruence).
  split.
  - intros k i b. destruct (Nat.eq_dec j k) as [<-|Hn].
    + rewrite !nth_error_set_nth_eq by lia. congruence.
    + rewrite !nth_error_set_nth_ne by auto. intros Ek Ek'. eapply rep_keeps; [eapply HR; eauto|exact K|].
      intros x Hx Hx'. exact (HD j k bi b x Hn Eb Ek' Hx' Hx).
  - intros k l b c x Hn.
    assert (Lb : forall m d, nth_error bis m = Some d -> forall y, In y (arrs d) -> y < length h).
    { intros m d Em y Hy. destruct (nth_error its m) as [i|] eqn:Em'; [eapply rep_arrs; eauto|].
      apply nth_error_None in Em'. assert (m < length bis) by (apply nth_error_Some; congruence). lia. }
    destruct (Nat.eq_dec j k) as [<-|Hk]; [|rewrite (@nth_error_set_nth_ne _ bis j k) by auto];
      (destruct (Nat.eq_dec j l) as [<-|Hl]; [|rewrite (@nth_error_set_nth_ne _ bis j l) by auto]).
    + congruence.
    + rewrite nth_error_set_nth_eq by lia. intros [= <-] Ec Hx Hc. destruct (W x Hx) as [Hx'|Hx'].
      * exact (HD j l bi c x Hl Eb Ec Hx' Hc).
      * pose proof (Lb l c Ec x Hc). lia.
    + rewrite nth_error_set_nth_eq by lia. intros Ec [= <-] Hx Hc. destruct (W x Hc) as [Hx'|Hx'].
      * exact (HD j k bi b x Hk Eb Ec Hx' Hx).
      * pose proof (Lb k b Ec x Hx). lia.
    + apply HD; auto.
Qed.

Lemma pool_range h its bis s : pool h its bis -> pool (snd (brange s h)) (its ++ [s_range s]) (bis ++ [fst (brange s h)]).
Proof.
  intros (HL & HR & HD). destruct (range_rep s h) as (R & K & W). split; [rewrite !app_length; cbn; lia|].
  assert (Lb : forall m d, nth_error bis m = Some d -> forall y, In y (arrs d) -> y < length h).
  { intros m d Em y Hy. destruct (nth_error its m) as [i|] eqn:Em'; [eapply rep_arrs; eauto|].
    apply nth_error_None in Em'. assert (m < length bis) by (apply nth_error_Some; congruence). lia. }
  assert (HN : forall {A} (l : list A) x k y, nth_error (l ++ [x]) k = Some y -> (nth_error l k = Some y /\ k < length l) \/ (k = length l /\ y = x)).
  { intros A l x k y Hk. destruct (lt_dec k (length l)); [rewrite nth_error_app1 in Hk by auto; auto|].
    rewrite nth_error_app2 in Hk by lia. destruct (k - length l) as [|z] eqn:Ez; [|destruct z; discriminate].
    right. split; [lia|]. cbn in Hk. congruence. }
  split.
  - intros k i b Ei Eb. destruct (HN _ _ _ _ _ Ei) as [[Ei' _]|[-> ->]], (HN _ _ _ _ _ Eb) as [[Eb' _]|[Hk ->]]; try lia; auto.
    + eapply rep_keeps; [eapply HR; eauto|exact K|]. intros x _ [].
    + assert (k < length its) by (apply nth_error_Some; congruence). lia.
    + assert (length its < length bis) by (apply nth_error_Some; congruence). lia.
  - intros k l b c x Hn Eb Ec Hx Hc. destruct (HN _ _ _ _ _ Eb) as [[Eb' _]|[-> ->]], (HN _ _ _ _ _ Ec) as [[Ec' _]|[Hk ->]].
    + exact (HD k l b c x Hn Eb' Ec' Hx Hc).
    + pose proof (Lb k b Eb' x Hx). destruct (W x Hc) as [[]|]. lia.
    + pose proof (Lb l c Ec' x Hc). destruct (W x Hx) as [[]|]. lia.
    + congruence.
Qed.

Theorem exec_same ops : forall h its bis, pool h its bis -> bexec ops bis h = iexec ops its.
Proof.
  induction ops as [|[s|j|j] ops IH]; intros h its bis H; cbn [bexec iexec]; auto.
  - pose proof (pool_range h its bis s H) as HP. destruct (brange s h) as [i h']. f_equal. apply IH. exact HP.
  - pose proof H as (HL & HR & _). destruct (nth_error bis j) as [bi|] eqn:Eb.
    + destruct (nth_error its j) as [it|] eqn:Ei.
      2: { apply nth_error_None in Ei. assert (j < length bis) by (apply nth_error_Some; congruence). lia. }
      pose proof (next_rep (S treeFuel) it bi h 0 0 (HR j it bi Ei Eb)) as HX. unfold i_next.
      destruct (inext (S treeFuel) it) as [[b it']| |]; [|rewrite HX; reflexivity..].
      destruct HX as (bi' & h' & -> & R & K & W). f_equal. apply IH. eapply pool_next; eauto.
    + destruct (nth_error its j) as [it|] eqn:Ei.
      1: { apply nth_error_None in Eb. assert (j < length its) by (apply nth_error_Some; congruence). lia. }
      f_equal. apply (IH h); auto.
  - pose proof H as (HL & HR & _). f_equal; [|apply (IH h); auto]. f_equal. destruct (nth_error bis j) as [bi|] eqn:Eb.
    + destruct (nth_error its j) as [it|] eqn:Ei; [eapply value_rep; eauto|].
      apply nth_error_None in Ei. assert (j < length bis) by (apply nth_error_Some; congruence). lia.
    + destruct (nth_error its j) as [it|] eqn:Ei; auto.
      apply nth_error_None in Eb. assert (j < length its) by (apply nth_error_Some; congruence). lia.
Qed.

End IterBuf.
