(** * SpecVetWhat: what Vet checks (C59). *)
From Verif Require Import Base Bits Env EnvFacts Node NodeWf NodeAdd NodeRemove NodeBin NodeBin2 NodeUn Iter Tree TreeFacts SetApi SetFacts Reach Vetting SpecVet.
Local Open Scope nat_scope.

(** Nodes as Go can build them: the children of a branch are an array of [fanout] places (packer.go:9-12), and no path is
    longer than [k]. *)
Inductive sized {E : Env} {T} : nat -> node T -> Prop :=
| sized_leaf1 k a : sized (S k) (Leaf1 a)
| sized_leaf2 k a b : sized (S k) (Leaf2 a b)
| sized_twig k l : sized (S k) (Twig l)
| sized_branch k m data : length data = fanout -> (forall i c, child data i = Some c -> sized k c) -> sized (S k) (Branch m data).

Fixpoint sizedb {E : Env} {T} (k : nat) (n : node T) : bool :=
  match k with
  | O => false
  | S k =>
      match n with
      | Branch _ data => (length data =? fanout) && forallb (fun o => match o with Some c => sizedb k c | None => true end) data
      | _ => true
      end
  end.
Lemma sizedb_ok {E : Env} {T} k : forall n : node T, sizedb k n = true -> sized k n.
Proof.
  induction k as [|k IH]; intros n H; [discriminate|]. destruct n as [a|a b|l|m data]; try constructor.
  - cbn [sizedb] in H. apply andb_true_iff in H. apply Nat.eqb_eq, H.
  - intros i c Hc. apply IH. cbn [sizedb] in H. apply andb_true_iff in H. destruct H as [_ H]. rewrite forallb_forall in H.
    unfold child in Hc. apply (H (Some c)). rewrite <- Hc. apply nth_In.
    destruct (Nat.lt_ge_cases i (length data)) as [|Hi]; auto. rewrite nth_overflow in Hc by auto. discriminate.
Qed.

(** What Vet wants of a node: a bucket has at least three elements, all of one hash, and the mask of a branch says which
    children there are. *)
Inductive Vets {E : Env} {T} {K : Key T} : node T -> Prop :=
| vets_leaf1 a : Vets (Leaf1 a)
| vets_leaf2 a b : Vets (Leaf2 a b)
| vets_twig l : 3 <= length l -> (forall a b, In a l -> In b l -> newHasher a 0 = newHasher b 0) -> Vets (Twig l)
| vets_branch m data : m = updateMask data -> (forall i c, child data i = Some c -> Vets c) -> Vets (Branch m data).

(** What Vet wants of a tree: that, and the right count. *)
Definition VetsTree {E : Env} {T} {K : Key T} (t : tree T) : Prop :=
  t_count t = Z.of_nat (length (elemso (t_root t))) /\ forall n, t_root t = Some n -> Vets n.

Section What.
Context {E : Env} {HE : EnvOk E} {T : Type} {K : Key T}.
Notation node := (node T).
Local Opaque maxTreeDepth fanout fb.

Lemma vet_what k : forall n : node, sized k n ->
  (Vets n /\ vet k n = Ok (Z.of_nat (length (elems n)))) \/ (~ Vets n /\ vet k n = Panic).
Proof.
  induction k as [|k IH]; intros n Hs; [inversion Hs|].
  destruct n as [a|a b|l|m data].
  - left. split; [constructor|reflexivity].
  - left. split; [constructor|reflexivity].
  - cbn [vet elems]. destruct (Nat.leb_spec (length l) 2) as [Hl|Hl].
    + right. split; auto. intros H. inversion H. lia.
    + destruct l as [|a l]; [simpl in Hl; lia|].
      destruct (forallb (fun e => (newHasher e 0 =? newHasher a 0)%N) l) eqn:Ef.
      * left. split; auto. rewrite forallb_forall in Ef.
        assert (Ha : forall e, In e (a :: l) -> newHasher e 0 = newHasher a 0).
        { intros e [<-|He]; auto. apply N.eqb_eq, Ef; auto. }
        constructor; [lia|]. intros x y Hx Hy. rewrite (Ha x Hx), (Ha y Hy). reflexivity.
      * right. split; auto. intros H. inversion H as [| |l' H1 H2|]; subst.
        assert (Ht : forallb (fun e => (newHasher e 0 =? newHasher a 0)%N) l = true).
        { apply forallb_forall. intros e He. apply N.eqb_eq, H2; [right; auto|left; auto]. }
        congruence.
  - inversion Hs as [| | |k' m' data' Hlen Hch]; subst. cbn [vet].
    destruct (N.eqb_spec (updateMask data) m) as [Hm|Hm].
    + assert (Hfold : forall order acc, (forall i, In i order -> exists c, child data i = Some c) ->
        ((forall i c, In i order -> child data i = Some c -> Vets c) /\
         foldM (fun count i => match child data i with
           | Some c => x <- vet k c ;; Ok (count + x)%Z | None => Panic end) acc order =
         Ok (acc + sumZ (map (fun i => leno (child data i)) order))%Z) \/
        ((exists i c, In i order /\ child data i = Some c /\ ~ Vets c) /\
         foldM (fun count i => match child data i with
           | Some c => x <- vet k c ;; Ok (count + x)%Z | None => Panic end) acc order = Panic)).
      { induction order as [|i order IHo]; intros acc Hin; cbn [foldM].
        - left. split; [intros i c []|]. unfold sumZ; simpl. f_equal; lia.
        - destruct (Hin i) as (c & Ec); [left; auto|]. rewrite Ec.
          destruct (IH c (Hch _ _ Ec)) as [[Hv Ev]|[Hv Ev]]; rewrite Ev; cbn [bind].
          + destruct (IHo (acc + Z.of_nat (length (elems c)))%Z) as [[Ho Eo]|[(j & c' & Hj & Ej & Hc') Eo]]; [intros; apply Hin; right; auto|left|right].
            * split.
              -- intros j c' [<-|Hj] Ej; [congruence|eauto].
              -- rewrite Eo. cbn [map]. rewrite Ec. unfold leno at 2. unfold sumZ; simpl. f_equal. lia.
            * split; auto. exists j, c'. split; [right; auto|auto].
          + right. split; auto. exists i, c. split; [left; auto|auto]. }
      assert (Hin : forall i, In i (mask_indices m) <-> exists c, child data i = Some c).
      { intros i. rewrite <- Hm. apply mask_indices_updateMask; auto. }
      destruct (Hfold (mask_indices m) 0%Z) as [[Hv Ev]|[(i & c & Hi & Ei & Hv) Ev]]; [intros i Hi; apply Hin; auto|left|right]; (split; [|rewrite Ev]; auto).
      * constructor; auto. intros i c Ec. apply (Hv i c); auto. apply Hin. eauto.
      * rewrite elems_branch, (length_branch data fanout) by auto. rewrite Z.add_0_l. f_equal.
        subst m. apply sumZ_mask.
        -- apply updateMask_lt.
        -- intros i Hi. apply mask_ge_fanout; auto.
        -- intros i Hi Ht. rewrite updateMask_testbit in Ht by auto. unfold leno.
           destruct (child data i); [discriminate|reflexivity].
      * intros H. inversion H as [| | |m' data' H1 H2]; subst. eauto.
    + right. split; auto. intros H. inversion H. congruence.
Qed.

(** Vet answers for every tree, and this is what it accepts. *)
Lemma c59_vet (t : tree T) : (forall n, t_root t = Some n -> sized treeFuel n) ->
  (t_vet t = Ok tt /\ VetsTree t) \/ (t_vet t = Panic /\ ~ VetsTree t).
Proof.
  intros Hs. unfold t_vet, VetsTree. destruct (t_root t) as [n|] eqn:En.
  - cbn [elemso]. destruct (vet_what treeFuel n (Hs n eq_refl)) as [[Hv ->]|[Hv ->]]; cbn [bind].
    + destruct (Z.eqb_spec (Z.of_nat (length (elems n))) (t_count t)) as [He|He]; [left|right]; split; auto.
      * split; auto. intros ? [= <-]. auto.
      * intros [H _]. congruence.
    + right. split; auto. intros [_ H]. auto.
  - cbn [elemso length]. destruct (Z.eqb_spec (t_count t) 0) as [He|He]; [left|right]; split; auto.
    + split; auto. discriminate.
    + intros [H _]. auto.
Qed.
End What.

Section Sound.
Context {E : Env} {HE : EnvOk E} {T : Type} {K : Key T} {vok : T -> Prop} {KO : KeyOk K vok}.
Local Opaque maxTreeDepth fanout fb.

Lemma wf_sized k : forall d (n : node T), wf vok d n -> maxTreeDepth - d < k -> sized k n.
Proof.
  induction k as [|k IH]; intros d n Hwf Hk; [lia|].
  inversion Hwf as [d' a Hd Ha|d' a b Hd Ha Hb Hab|d' l Hd Hl Hok Hdis|d' mk data Hd Hlen Hm Hch Hp Hl]; subst; constructor; auto.
  intros i c Hc. apply (IH (S d)); eauto. lia.
Qed.

(** The trees of sets are among those. *)
Lemma c59_reach (s : set T) : SetReach vok s ->
  (forall n, t_root (s_tree s) = Some n -> sized treeFuel n) /\ VetsTree (s_tree s).
Proof.
  intros Hs. apply sreach_ok in Hs; auto. pose proof (t_vet_ok (vok := vok) (s_tree s) Hs) as Hv. destruct Hs as [Hw Hc].
  assert (H : forall n, t_root (s_tree s) = Some n -> sized treeFuel n).
  { intros n Hn. apply (wf_sized treeFuel 0); [apply Hw; auto|]. apply fuelGet_tree. }
  split; auto. destruct (c59_vet (s_tree s) H) as [[_ Hr]|[Hr _]]; auto. congruence.
Qed.
End Sound.

Section Fails.
Context {E : Env} {T : Type} {K : Key T}.

(** With vetting on, a second operand that fails is found too, and builders are checked before and after. *)
Lemma c56_fails_second (t u : tree T) : t_vet t = Ok tt -> t_vet u = Panic ->
  (forall args, t_combineV args t u = Panic) /\
  (forall g, t_differenceV g t u = Panic) /\
  (forall g, t_intersectionV g t u = Panic).
Proof.
  intros Ht Hu. assert (Hv : forall A (op : res A) f, vetted [t; u] op f = Panic).
  { intros. unfold vetted, vetCheck. cbn [foldM]. rewrite Ht. cbn [bind]. rewrite Hu. reflexivity. }
  repeat split; intros; apply Hv.
Qed.

Lemma c56_fails_builder (b : tree T) (op : res (tree T)) : t_root b <> None ->
  t_vet b = Panic \/ (exists b', op = Ok b' /\ t_vet b' = Panic) -> forall r, b_vetted b op <> Ok r.
Proof.
  intros Hb H r. unfold b_vetted. destruct (t_root b); [|congruence]. destruct (b_clone b); cbn [bind]; try discriminate.
  unfold vetted, vetCheck. cbn [foldM]. destruct H as [->|(b' & -> & H)]; [discriminate|].
  destruct (t_vet b); cbn [bind]; try discriminate. rewrite H. discriminate.
Qed.
End Fails.
