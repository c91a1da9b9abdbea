(** * SpecIter: any number of iterators used in any order (C51). *)
From Verif Require Import Base Bits Env EnvFacts Node NodeWf Iter Tree TreeFacts SetApi SetFacts Reach Spec SpecSet IterBuf.

(** What the program should answer, with a cursor (a list and the number of calls of Next so far) for every iterator: Next answers whether there is another
    element, Value gives the element after the last successful Next, and panics before the first and after the last. *)
Fixpoint cexec {E : Env} {T : Type} (ops : list (@iop T)) (cs : list (list T * nat)) : list ians :=
  match ops with
  | [] => []
  | ORange s :: ops => AMade :: cexec ops (cs ++ [(match s_elements s with Ok l => l | _ => [] end, O)])
  | ONext j :: ops =>
      match nth_error cs j with
      | None => ANext Panic :: cexec ops cs
      | Some (l, n) => ANext (Ok (n <? length l)) :: cexec ops (set_nth cs j (l, S n))
      end
  | OValue j :: ops =>
      AValue (match nth_error cs j with
              | Some (l, S n) => match nth_error l n with Some v => Ok v | None => Panic end
              | _ => Panic
              end) :: cexec ops cs
  end.

(** The sets a program iterates over. *)
Definition ranged {T} (ops : list (@iop T)) (s : set T) : Prop := In (ORange s) ops.

Section Buffer.
Context {E : Env} {T : Type}.

(** The buffers, of whatever size and growth, make no difference. *)
Lemma c51_buffer grow (ops : list (@iop T)) : bexec grow ops [] [] = iexec ops [].
Proof.
  apply exec_same. split; auto. split; intros [|j]; discriminate || (intros [|k]; discriminate).
Qed.
End Buffer.

Section C51.
Local Opaque maxTreeDepth fanout fb.
Context {E : Env} {HE : EnvOk E} {T : Type} {K : Key T} {vok : T -> Prop} {KO : KeyOk K vok}.

Lemma inext_end fuel : forall d (it : iter T) it', iok (vok := vok) d it -> maxTreeDepth - d < fuel ->
  inext fuel it = Ok (false, it') -> ivalue it' = Panic.
Proof.
  induction fuel as [|fuel IH]; intros d it it' Hok Hf; [discriminate|].
  destruct Hok as [d|d l k|d p i Hd Hp Hi]; cbn [inext].
  - intros [= <-]. auto.
  - intros [= Hk <-]. cbn. apply Nat.ltb_ge in Hk. rewrite (proj2 (nth_error_None _ _)); auto.
  - destruct (inext_spec (vok := vok) fuel (S d) i Hi) as (b & i' & E1 & Hok' & Hr); [lia|]. rewrite E1. cbn [bind]. destruct b; [discriminate|].
    pose proof (nextChild_spec p (S d) Hp) as Hn. destruct (nextChild p) as [[c p']|].
    + destruct Hn as (Hn & Hc & Hp').
      destruct (inext_spec (vok := vok) fuel (S d) (iterator c)) as (b2 & i2 & E2 & Hok2 & Hr2); [apply iok_iterator; auto|lia|].
      rewrite E2. cbn [bind]. rewrite remaining_iterator in Hr2.
      destruct (elems c) as [|x xs] eqn:Ec; [apply wf_nonnil in Hc; congruence|]. destruct Hr2 as (-> & _). discriminate.
    + intros [= <-]. cbn. apply (IH (S d) i i'); auto. lia.
Qed.

(** An iterator and its cursor. *)
Definition cursor (it : iter T) (c : list T * nat) : Prop :=
  iok (vok := vok) 0 it /\ remaining it = skipn (snd c) (fst c) /\
  ivalue it = match snd c with O => Panic | S n => match nth_error (fst c) n with Some v => Ok v | None => Panic end end.

Lemma skipn_cons {A} (l : list A) n x xs : skipn n l = x :: xs -> nth_error l n = Some x /\ skipn (S n) l = xs /\ n < length l.
Proof.
  revert n. induction l as [|a l IH]; intros [|n] H; cbn in *; try discriminate.
  - injection H as <- <-. repeat split; auto. lia.
  - destruct (IH n H) as (H1 & H2 & H3). repeat split; auto. lia.
Qed.
Lemma skipn_nil' {A} (l : list A) n : skipn n l = [] -> length l <= n.
Proof. revert n. induction l as [|a l IH]; intros [|n] H; cbn in *; try discriminate; try lia. apply IH in H. lia. Qed.

Lemma cursor_next it c : cursor it c -> exists it', i_next it = Ok (snd c <? length (fst c), it') /\ cursor it' (fst c, S (snd c)).
Proof.
  destruct c as [l n]. intros (H1 & H2 & H3). cbn [fst snd] in *.
  destruct (i_next_ok (vok := vok) it H1) as (b & it' & E1 & Hi' & Hr). exists it'. rewrite H2 in Hr.
  destruct (skipn n l) as [|x xs] eqn:Es.
  - destruct Hr as [-> Hr]. pose proof (skipn_nil' l n Es) as Hl. rewrite (proj2 (Nat.ltb_ge n (length l))) by auto. split; auto.
    split; auto. cbn [fst snd]. split; [rewrite Hr, skipn_all2; auto|]. rewrite (proj2 (nth_error_None _ _)) by auto.
    unfold i_next in E1. eapply inext_end; [exact H1| |exact E1]. unfold treeFuel. lia.
  - destruct Hr as (-> & Hr & Hv). destruct (skipn_cons l n x xs Es) as (Hx & Hs & Hl).
    rewrite (proj2 (Nat.ltb_lt n (length l))) by auto. split; auto. split; auto. cbn [fst snd]. rewrite Hx. split; [congruence|auto].
Qed.

Lemma cursor_range s : sok vok s -> cursor (s_range s) (match s_elements s with Ok l => l | _ => [] end, O).
Proof.
  intros Hs. destruct (range_iok (vok := vok) s Hs) as [H1 H2]. rewrite (s_elements_ok (vok := vok)) by auto.
  split; auto. cbn [fst snd]. split; auto. unfold s_range, t_iterator. destruct (t_root (s_tree s)) as [[]|]; auto.
Qed.

Lemma Forall2_set_nth {A B} (R : A -> B -> Prop) l l' j a b : Forall2 R l l' -> R a b -> Forall2 R (set_nth l j a) (set_nth l' j b).
Proof. intros H Hab. revert j. induction H as [|x y l l' Hxy H IH]; intros [|j]; cbn; constructor; auto. Qed.
Lemma Forall2_nth_error {A B} (R : A -> B -> Prop) l l' j : Forall2 R l l' ->
  match nth_error l j, nth_error l' j with Some a, Some b => R a b | None, None => True | _, _ => False end.
Proof. intros H. revert j. induction H as [|a b l l' Hab H IH]; intros [|j]; cbn; auto. apply IH. Qed.

Lemma iexec_cexec ops : forall its cs, (forall s, ranged ops s -> SetReach vok s) -> Forall2 cursor its cs -> iexec ops its = cexec ops cs.
Proof.
  induction ops as [|[s|j|j] ops IH]; intros its cs HS H; cbn [iexec cexec]; auto.
  - f_equal. apply IH; [intros t Ht; apply HS; right; auto|]. apply Forall2_app; auto. constructor; auto.
    apply cursor_range. apply (sreach_ok s). apply HS. left; auto.
  - pose proof (Forall2_nth_error cursor its cs j H) as Hj.
    assert (HS' : forall s, ranged ops s -> SetReach vok s) by (intros t Ht; apply HS; right; auto).
    destruct (nth_error its j) as [it|], (nth_error cs j) as [[l n]|]; try contradiction.
    + destruct (cursor_next it (l, n) Hj) as (it' & -> & Hc). f_equal. apply IH; auto. apply Forall2_set_nth; auto.
    + f_equal. auto.
  - f_equal; [|apply IH; auto; intros t Ht; apply HS; right; auto]. f_equal.
    pose proof (Forall2_nth_error cursor its cs j H) as Hj.
    destruct (nth_error its j) as [it|], (nth_error cs j) as [[l n]|]; try contradiction; auto. apply Hj.
Qed.

Lemma c51_independent grow (ops : list (@iop T)) : (forall s, ranged ops s -> SetReach vok s) -> bexec grow ops [] [] = cexec ops [].
Proof. intros H. rewrite c51_buffer. apply iexec_cexec; auto. Qed.

End C51.
