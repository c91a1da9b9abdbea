(** * GoHeap: Go's container/heap on a slice.

    The functions below are those of the Go standard library (container/heap/heap.go) for a
    [heap.Interface] whose [Swap] exchanges two slice elements and whose [Less(i, j)] is
    [cmp el[i] el[j]] (packer_iter.go:63-69 and 106-108). An index out of range panics. *)
From Verif Require Import Base.

Section Heap.
Context {T : Type} (cmp : T -> T -> bool).

(** [h.Less(i, j)]. *)
Definition h_less (l : list T) (i j : nat) : res bool :=
  match nth_error l i, nth_error l j with
  | Some a, Some b => Ok (cmp a b)
  | _, _ => Panic
  end.

(** [h.Swap(i, j)] (packer_iter.go:67-69). *)
Definition h_swap (l : list T) (i j : nat) : res (list T) :=
  match nth_error l i, nth_error l j with
  | Some a, Some b => Ok (set_nth (set_nth l i b) j a)
  | _, _ => Panic
  end.

(** container/heap [up]. For [j = 0], Go's [(j-1)/2] is 0, as here. *)
Fixpoint h_up (fuel : nat) (l : list T) (j : nat) : res (list T) :=
  match fuel with
  | O => Fuel
  | S k =>
      let i := (j - 1) / 2 in
      if i =? j then Ok l
      else
        b <- h_less l j i ;;
        if (b : bool) then l' <- h_swap l i j ;; h_up k l' i else Ok l
  end.

(** container/heap [down] (its boolean result is not used). *)
Fixpoint h_down (fuel : nat) (l : list T) (i n : nat) : res (list T) :=
  match fuel with
  | O => Fuel
  | S k =>
      let j1 := 2 * i + 1 in
      if n <=? j1 then Ok l
      else
        let j2 := j1 + 1 in
        b2 <- (if j2 <? n then h_less l j2 j1 else Ok false) ;;
        let j := if (b2 : bool) then j2 else j1 in
        b <- h_less l j i ;;
        if (b : bool) then l' <- h_swap l i j ;; h_down k l' j n else Ok l
  end.

(** container/heap [Init]: the loop runs [i] from [n/2 - 1] down to 0; [i] here is one more. *)
Fixpoint h_init_loop (l : list T) (i n : nat) : res (list T) :=
  match i with
  | O => Ok l
  | S i' => l' <- h_down (S n) l i' n ;; h_init_loop l' i' n
  end.
Definition h_init (l : list T) : res (list T) := h_init_loop l (length l / 2) (length l).

(** container/heap [Push] with packer_iter.go:71-73. *)
Definition h_push (l : list T) (x : T) : res (list T) :=
  let l' := l ++ [x] in h_up (S (length l')) l' (length l' - 1).

(** container/heap [Pop] with packer_iter.go:75-79: panics on an empty heap. *)
Definition h_pop (l : list T) : res (T * list T) :=
  match l with
  | [] => Panic
  | _ =>
      let n := length l - 1 in
      l1 <- h_swap l 0 n ;;
      l2 <- h_down (S n) l1 0 n ;;
      match nth_error l2 n with
      | Some x => Ok (x, firstn n l2)
      | None => Panic
      end
  end.
End Heap.

Section HeapFacts.
Context {T : Type} (cmp : T -> T -> bool) (ok : T -> Prop).
(** [cmp] is a strict weak order on [ok]. *)
Hypothesis cmp_irrefl : forall a, ok a -> cmp a a = false.
Hypothesis cmp_trans : forall a b c, ok a -> ok b -> ok c -> cmp a b = true -> cmp b c = true -> cmp a c = true.
Hypothesis cmp_neg : forall a b c, ok a -> ok b -> ok c -> cmp a c = true -> cmp a b = true \/ cmp b c = true.

Definition le (a b : T) : Prop := cmp b a = false.

Lemma le_refl a : ok a -> le a a.
Proof. intros; apply cmp_irrefl; auto. Qed.
Lemma le_trans a b c : ok a -> ok b -> ok c -> le a b -> le b c -> le a c.
Proof.
  unfold le. intros Ha Hb Hc H1 H2. destruct (cmp c a) eqn:E; auto.
  destruct (cmp_neg c b a Hc Hb Ha E); congruence.
Qed.
Lemma le_lt a b : ok a -> ok b -> cmp a b = true -> le a b.
Proof.
  unfold le. intros Ha Hb H. destruct (cmp b a) eqn:E; auto.
  rewrite <- (cmp_irrefl a Ha). symmetry. apply (cmp_trans a b a); auto.
Qed.

(** [at_ l i a]: the slice element [l[i]] is [a]. *)
Notation at_ l i a := (nth_error l i = Some a).

Lemma nth_error_ex (l : list T) i : i < length l -> exists a, at_ l i a.
Proof. intros H. destruct (nth_error l i) eqn:E; eauto. apply nth_error_None in E. lia. Qed.

Lemma swap_perm (l : list T) i j a b :
  at_ l i a -> at_ l j b -> Permutation (set_nth (set_nth l i b) j a) l.
Proof.
  intros Hi Hj.
  assert (Li : i < length l) by (apply nth_error_Some; congruence).
  assert (Lj : j < length l) by (apply nth_error_Some; congruence).
  destruct (Nat.eq_dec i j) as [<-|Hne].
  - assert (a = b) as -> by congruence.
    assert (Hs : set_nth l i b = l).
    { clear - Hi. revert i Hi; induction l as [|x l IH]; intros [|i] H; simpl in *; try discriminate; try congruence.
      f_equal; auto. }
    rewrite !Hs. reflexivity.
  - assert (HG : forall (l : list T) i j, i < j -> forall a b, at_ l i a -> at_ l j b ->
      Permutation (set_nth (set_nth l i b) j a) l /\ Permutation (set_nth (set_nth l j a) i b) l).
    { clear. induction l as [|x l IH]; intros [|i] [|j] Hij a b Hi Hj; simpl in *; try discriminate; try lia.
      - injection Hi as ->.
        assert (Permutation (b :: set_nth l j a) (a :: l)).
        { clear IH Hij. revert j Hj. induction l as [|y l IH]; intros [|j] Hj; simpl in *; try discriminate.
          - injection Hj as ->. constructor.
          - eapply perm_trans; [apply perm_swap|]. eapply perm_trans; [|apply perm_swap]. constructor. auto. }
        auto.
      - destruct (IH i j) with (a := a) (b := b); auto; try lia. }
    destruct (Nat.lt_ge_cases i j) as [Hij|Hij].
    + apply (HG l i j); auto.
    + destruct (HG l j i) with (a := b) (b := a); auto. lia.
Qed.

Lemma swap_at (l : list T) i j a b k :
  at_ l i a -> at_ l j b ->
  nth_error (set_nth (set_nth l i b) j a) k =
  if k =? j then Some a else if k =? i then Some b else nth_error l k.
Proof.
  intros Hi Hj.
  assert (Li : i < length l) by (apply nth_error_Some; congruence).
  assert (Lj : j < length l) by (apply nth_error_Some; congruence).
  destruct (Nat.eqb_spec k j) as [->|Hkj].
  - apply nth_error_set_nth_eq. rewrite set_nth_length. auto.
  - rewrite nth_error_set_nth_ne by auto. destruct (Nat.eqb_spec k i) as [->|Hki].
    + apply nth_error_set_nth_eq; auto.
    + apply nth_error_set_nth_ne; auto.
Qed.

Definition par (k : nat) : nat := (k - 1) / 2.
Lemma par_lt k : 0 < k -> par k < k.
Proof. intros. unfold par. apply Nat.div_lt_upper_bound; lia. Qed.
Lemma par_child k i : 0 < k -> par k = i <-> k = 2 * i + 1 \/ k = 2 * i + 2.
Proof.
  intros H. unfold par. split.
  - intros <-. pose proof (Nat.div_mod (k - 1) 2 ltac:(lia)) as Hd.
    pose proof (Nat.mod_upper_bound (k - 1) 2 ltac:(lia)). lia.
  - intros [->| ->].
    + replace (2 * i + 1 - 1) with (i * 2) by lia. apply Nat.div_mul; lia.
    + replace (2 * i + 2 - 1) with (1 + i * 2) by lia. rewrite Nat.div_add by lia. reflexivity.
Qed.

(** Children at or above position [s] are in order with their parents. *)
Definition heapFrom (s : nat) (l : list T) (n : nat) : Prop :=
  forall k a b, 0 < k -> k < n -> s <= par k -> at_ l (par k) a -> at_ l k b -> le a b.

Definition allk (l : list T) : Prop := forall e, In e l -> ok e.
Lemma allk_at l i a : allk l -> at_ l i a -> ok a.
Proof. intros H Hi. apply H. eapply nth_error_In; eauto. Qed.
Lemma allk_perm l l' : Permutation l l' -> allk l -> allk l'.
Proof. intros HP H e He. apply H. eapply Permutation_in; [symmetry|]; eauto. Qed.

(** ** up *)

Definition upInv (l : list T) (j : nat) : Prop :=
  (forall k a b, 0 < k -> k < length l -> k <> j -> at_ l (par k) a -> at_ l k b -> le a b) /\
  (0 < j -> forall k a b, 0 < k -> par k = j -> at_ l (par j) a -> at_ l k b -> le a b).

Lemma h_up_ok fuel : forall l j, allk l -> j < length l -> j < fuel -> upInv l j ->
  exists l', h_up cmp fuel l j = Ok l' /\ Permutation l' l /\ heapFrom 0 l' (length l').
Proof.
  induction fuel as [|fuel IH]; intros l j Hok Hj Hf [H1 H2]; [lia|]. cbn [h_up].
  fold (par j). destruct (Nat.eqb_spec (par j) j) as [Ep|Ep].
  - assert (j = 0). { destruct j; auto. pose proof (par_lt (S j)). lia. } subst j.
    exists l. split; auto. split; auto. intros k a b Hk Hkn _. apply H1; auto. lia.
  - assert (0 < j). { destruct j; [|lia]. exfalso. apply Ep. reflexivity. }
    pose proof (par_lt j ltac:(auto)) as Hpj.
    destruct (nth_error_ex l j) as (b & Hb); auto. destruct (nth_error_ex l (par j)) as (a & Ha); [lia|].
    assert (Hoa : ok a) by (eapply allk_at; eauto). assert (Hob : ok b) by (eapply allk_at; eauto).
    unfold h_less. rewrite Hb, Ha. cbn [bind]. destruct (cmp b a) eqn:Ec.
    + unfold h_swap. rewrite Hb, Ha. cbn [bind].
      pose proof (swap_perm l (par j) j a b Ha Hb) as HP.
      set (l' := set_nth (set_nth l (par j) b) j a) in *.
      assert (Hlen : length l' = length l) by (unfold l'; rewrite !set_nth_length; auto).
      destruct (IH l' (par j)) as (l2 & E2 & HP2 & HH); try lia.
      { eapply allk_perm; [symmetry|]; eauto. }
      { split.
        - intros k x y Hk Hkn Hne Hx Hy. unfold l' in Hx, Hy.
          rewrite (swap_at l (par j) j a b) in Hx, Hy by auto.
          destruct (Nat.eqb_spec k j) as [->|Hkj].
          + injection Hy as <-. destruct (Nat.eqb_spec (par j) j); [lia|].
            rewrite Nat.eqb_refl in Hx. injection Hx as <-. apply le_lt; auto.
          + destruct (Nat.eqb_spec k (par j)); [lia|].
            destruct (Nat.eqb_spec (par k) j) as [Epk|Epk].
            * injection Hx as <-. eapply H2; eauto.
            * destruct (Nat.eqb_spec (par k) (par j)) as [Epk2|Epk2].
              -- injection Hx as <-. apply (le_trans b a y); auto.
                 ++ eapply allk_at; eauto.
                 ++ apply le_lt; auto.
                 ++ apply (H1 k); auto; [lia|]. rewrite Epk2; auto.
              -- apply (H1 k); auto; lia.
        - intros Hpp k x y Hk Hpk Hx Hy. unfold l' in Hx, Hy.
          rewrite (swap_at l (par j) j a b) in Hx, Hy by auto.
          pose proof (par_lt (par j) Hpp).
          destruct (Nat.eqb_spec (par (par j)) j); [lia|].
          destruct (Nat.eqb_spec (par (par j)) (par j)); [lia|].
          assert (Hxa : le x a) by (apply (H1 (par j)); auto; lia).
          destruct (Nat.eqb_spec k j) as [->|Hkj]; [injection Hy as <-; auto|].
          pose proof (par_lt k Hk).
          destruct (Nat.eqb_spec k (par j)); [lia|].
          apply (le_trans x a y); auto; try (eapply allk_at; eauto; fail).
          apply (H1 k); auto.
          + rewrite <- Hlen. unfold l'. apply nth_error_Some. rewrite (swap_at l (par j) j a b) by auto.
            destruct (Nat.eqb_spec k j); [lia|]. destruct (Nat.eqb_spec k (par j)); [lia|]. congruence.
          + rewrite Hpk; auto. }
      exists l2. split; auto. split; [rewrite HP2; auto|auto].
    + exists l. split; auto. split; auto. intros k x y Hk Hkn _ Hx Hy.
      destruct (Nat.eq_dec k j) as [->|Hne]; [|apply (H1 k); auto].
      assert (x = a) by congruence. assert (y = b) by congruence. subst. exact Ec.
Qed.

Lemma h_push_ok l x : allk l -> ok x -> heapFrom 0 l (length l) ->
  exists l', h_push cmp l x = Ok l' /\ Permutation l' (x :: l) /\ heapFrom 0 l' (length l').
Proof.
  intros Hok Hx H. unfold h_push.
  assert (Hlen : length (l ++ [x]) = S (length l)) by (rewrite app_length; simpl; lia).
  destruct (h_up_ok (S (length (l ++ [x]))) (l ++ [x]) (length (l ++ [x]) - 1)) as (l' & E1 & HP & HH).
  - intros e He. apply in_app_or in He as [He|[<-|[]]]; auto.
  - lia.
  - lia.
  - rewrite Hlen. replace (S (length l) - 1) with (length l) by lia. split.
    + intros k a b Hk Hkn Hne Ha Hb. pose proof (par_lt k Hk).
      rewrite nth_error_app1 in Ha, Hb by lia. apply (H k); auto; lia.
    + intros Hl k a b Hk Hpk _ Hb. exfalso. pose proof (par_lt k Hk).
      assert (k < length (l ++ [x])) by (apply nth_error_Some; congruence). lia.
  - exists l'. split; auto. split; auto. rewrite HP. rewrite Permutation_app_comm. reflexivity.
Qed.

(** ** down *)

Definition downInv (s : nat) (l : list T) (i n : nat) : Prop :=
  (forall k a b, 0 < k -> k < n -> s <= par k -> par k <> i -> at_ l (par k) a -> at_ l k b -> le a b) /\
  (0 < i -> s <= par i -> forall k a b, 0 < k -> k < n -> par k = i -> at_ l (par i) a -> at_ l k b -> le a b).

Lemma h_down_ok fuel : forall s l i n, allk l -> n <= length l -> 0 < fuel -> n < i + fuel -> s <= i -> downInv s l i n ->
  exists l', h_down cmp fuel l i n = Ok l' /\ Permutation l' l /\ heapFrom s l' n /\
    (forall k, n <= k -> nth_error l' k = nth_error l k).
Proof.
  induction fuel as [|fuel IH]; intros s l i n Hok Hn Hf0 Hf Hsi [H1 H2]; cbn [h_down].
  - lia.
  - destruct (Nat.leb_spec n (2 * i + 1)) as [Hj1|Hj1].
    + exists l. split; auto. split; auto. split; auto. intros k a b Hk Hkn Hs Ha Hb.
      apply (H1 k); auto. intros Hp. apply par_child in Hp; lia.
    + destruct (nth_error_ex l (2 * i + 1)) as (b1 & Hb1); [lia|].
      destruct (nth_error_ex l i) as (a & Ha); [lia|].
      assert (Hoa : ok a) by (eapply allk_at; eauto). assert (Hob1 : ok b1) by (eapply allk_at; eauto).
      assert (HJ : exists j b, (j = 2 * i + 1 \/ j = 2 * i + 2) /\ j < n /\ at_ l j b /\ ok b /\
        (if 2 * i + 1 + 1 <? n then h_less cmp l (2 * i + 1 + 1) (2 * i + 1) else Ok false) = Ok (j =? 2 * i + 2) /\
        (forall k c, 0 < k -> k < n -> par k = i -> at_ l k c -> le b c)).
      { destruct (Nat.ltb_spec (2 * i + 1 + 1) n) as [Hj2|Hj2].
        - destruct (nth_error_ex l (2 * i + 1 + 1)) as (b2 & Hb2); [lia|].
          assert (Hob2 : ok b2) by (eapply allk_at; eauto).
          unfold h_less. rewrite Hb1, Hb2. destruct (cmp b2 b1) eqn:E21.
          + exists (2 * i + 2), b2. replace (2 * i + 2) with (2 * i + 1 + 1) in * by lia.
            rewrite Nat.eqb_refl. repeat split; auto.
            intros k c Hk Hkn Hp Hc. apply par_child in Hp as [->| ->]; auto.
            * assert (c = b1) by congruence. subst. apply le_lt; auto.
            * replace (2 * i + 2) with (2 * i + 1 + 1) in * by lia. assert (c = b2) by congruence. subst. apply le_refl; auto.
          + exists (2 * i + 1), b1. destruct (Nat.eqb_spec (2 * i + 1) (2 * i + 2)); [lia|].
            repeat split; auto; try lia.
            intros k c Hk Hkn Hp Hc. apply par_child in Hp as [->| ->]; auto.
            * assert (c = b1) by congruence. subst. apply le_refl; auto.
            * replace (2 * i + 2) with (2 * i + 1 + 1) in * by lia. assert (c = b2) by congruence. subst. exact E21.
        - exists (2 * i + 1), b1. destruct (Nat.eqb_spec (2 * i + 1) (2 * i + 2)); [lia|].
          repeat split; auto; try lia.
          intros k c Hk Hkn Hp Hc. apply par_child in Hp as [->| ->]; auto; [|lia].
          assert (c = b1) by congruence. subst. apply le_refl; auto. }
      destruct HJ as (j & b & Hj & Hjn & Hb & Hob & E2 & Hmin). rewrite E2. cbn [bind].
      replace (if j =? 2 * i + 2 then 2 * i + 1 + 1 else 2 * i + 1) with j.
      2:{ destruct (Nat.eqb_spec j (2 * i + 2)); lia. }
      assert (Hpj : par j = i) by (apply par_child; lia).
      unfold h_less. rewrite Hb, Ha. cbn [bind]. destruct (cmp b a) eqn:Ec.
      * unfold h_swap. rewrite Hb, Ha. cbn [bind].
        pose proof (swap_perm l i j a b Ha Hb) as HP.
        set (l' := set_nth (set_nth l i b) j a) in *.
        assert (Hlen : length l' = length l) by (unfold l'; rewrite !set_nth_length; auto).
        destruct (IH s l' j n) as (l2 & E3 & HP2 & HH & Hrest); try lia.
        { eapply allk_perm; [symmetry|]; eauto. }
        { split.
          - intros k x y Hk Hkn Hs Hne Hx Hy. unfold l' in Hx, Hy.
            rewrite (swap_at l i j a b) in Hx, Hy by auto. pose proof (par_lt k Hk).
            destruct (Nat.eqb_spec (par k) j); [lia|].
            destruct (Nat.eqb_spec (par k) i) as [Epk|Epk].
            + injection Hx as <-. destruct (Nat.eqb_spec k j) as [->|Hkj].
              * injection Hy as <-. apply le_lt; auto.
              * destruct (Nat.eqb_spec k i); [lia|]. apply (Hmin k); auto.
            + destruct (Nat.eqb_spec k j) as [->|Hkj]; [lia|].
              destruct (Nat.eqb_spec k i) as [->|Hki].
              * injection Hy as <-. apply (H2 Hk Hs j); auto. lia.
              * apply (H1 k); auto.
          - intros Hj0 Hsj k x y Hk Hkn Hpk Hx Hy. unfold l' in Hx, Hy.
            rewrite (swap_at l i j a b) in Hx, Hy by auto. pose proof (par_lt k Hk).
            rewrite Hpj in Hx.
            destruct (Nat.eqb_spec i j); [lia|]. rewrite Nat.eqb_refl in Hx. injection Hx as <-.
            destruct (Nat.eqb_spec k j); [lia|]. destruct (Nat.eqb_spec k i); [lia|].
            apply (H1 k); auto; try lia. rewrite Hpk; auto. }
        exists l2. split; auto. split; [rewrite HP2; auto|]. split; auto.
        intros k Hk. rewrite Hrest by auto. unfold l'. rewrite (swap_at l i j a b) by auto.
        destruct (Nat.eqb_spec k j); [lia|]. destruct (Nat.eqb_spec k i); [lia|]. auto.
      * exists l. split; auto. split; auto. split; auto. intros k x y Hk Hkn Hs Hx Hy.
        destruct (Nat.eq_dec (par k) i) as [Ep|Ep]; [|apply (H1 k); auto].
        assert (x = a) by congruence. subst x. apply (le_trans a b y); auto.
        { eapply allk_at; eauto. }
        { apply (Hmin k); auto. }
Qed.

Lemma heap_root l n : allk l -> n <= length l -> heapFrom 0 l n ->
  forall k a b, k < n -> at_ l 0 a -> at_ l k b -> le a b.
Proof.
  intros Hok Hn H k. induction k as [k IH] using lt_wf_ind. intros a b Hk Ha Hb.
  destruct (Nat.eq_dec k 0) as [->|Hk0].
  - assert (a = b) as -> by congruence. apply le_refl. eapply allk_at; eauto.
  - pose proof (par_lt k ltac:(lia)). destruct (nth_error_ex l (par k)) as (c & Hc); [lia|].
    apply (le_trans a c b); try (eapply allk_at; eauto; fail).
    + apply (IH (par k)); auto; lia.
    + apply (H k); auto; lia.
Qed.

Lemma h_pop_ok l : allk l -> l <> [] -> heapFrom 0 l (length l) ->
  exists x l', h_pop cmp l = Ok (x, l') /\ Permutation (x :: l') l /\ heapFrom 0 l' (length l') /\
    (forall e, In e l' -> le x e).
Proof.
  intros Hok Hne H. unfold h_pop. destruct l as [|x0 l0] eqn:El; [congruence|]. rewrite <- El in *. clear Hne.
  assert (HL : 0 < length l) by (rewrite El; simpl; lia).
  set (n := length l - 1). destruct (nth_error_ex l 0) as (a & Ha); [lia|].
  destruct (nth_error_ex l n) as (b & Hb); [lia|].
  unfold h_swap. rewrite Ha, Hb. cbn [bind].
  pose proof (swap_perm l 0 n a b Ha Hb) as HP.
  pose proof (swap_at l 0 n a b) as Hat.
  set (l1 := set_nth (set_nth l 0 b) n a) in *.
  assert (Hlen : length l1 = length l) by (unfold l1; rewrite !set_nth_length; auto).
  destruct (h_down_ok (S n) 0 l1 0 n) as (l2 & E2 & HP2 & HH & Hrest); try lia.
  { eapply allk_perm; [symmetry|]; eauto. }
  { split; [|lia]. intros k x y Hk Hkn _ Hne Hx Hy. rewrite Hat in Hx, Hy by auto.
    pose proof (par_lt k Hk).
    destruct (Nat.eqb_spec (par k) n); [lia|]. destruct (Nat.eqb_spec (par k) 0); [lia|].
    destruct (Nat.eqb_spec k n); [lia|]. destruct (Nat.eqb_spec k 0); [lia|]. apply (H k); auto; lia. }
  rewrite E2. cbn [bind].
  assert (Hl2 : at_ l2 n a). { rewrite Hrest by lia. rewrite Hat by auto. rewrite Nat.eqb_refl. auto. }
  rewrite Hl2. exists a, (firstn n l2).
  assert (Hlen2 : length l2 = S n) by (rewrite (Permutation_length HP2); lia).
  assert (Hsplit : l2 = firstn n l2 ++ [a]).
  { rewrite <- (firstn_skipn n l2) at 1. f_equal.
    pose proof (skipn_length n l2) as Hsk. destruct (skipn n l2) as [|y [|z sk]] eqn:Es; simpl in Hsk; try lia.
    f_equal. rewrite <- (firstn_skipn n l2) in Hl2. rewrite nth_error_app2 in Hl2 by (rewrite firstn_length; lia).
    rewrite firstn_length in Hl2. rewrite Es in Hl2. replace (n - Nat.min n (length l2)) with 0 in Hl2 by lia.
    simpl in Hl2. congruence. }
  assert (HPf : Permutation (a :: firstn n l2) l).
  { rewrite <- HP, <- HP2. rewrite Hsplit at 2. rewrite <- Permutation_cons_append. reflexivity. }
  split; auto. split; auto. split.
  - rewrite firstn_length. replace (Nat.min n (length l2)) with n by lia.
    intros k x y Hk Hkn Hs Hx Hy. pose proof (par_lt k Hk).
    apply (HH k); auto; rewrite Hsplit, nth_error_app1; auto; rewrite firstn_length; lia.
  - intros e He. assert (Hin : In e l).
    { eapply Permutation_in; [apply HPf|]. right; auto. }
    apply In_nth_error in Hin as (k & Hk). apply (heap_root l (length l)) with (k := k); auto.
    apply nth_error_Some. congruence.
Qed.

Lemma h_init_loop_ok i : forall l, allk l -> heapFrom i l (length l) ->
  exists l', h_init_loop cmp l i (length l) = Ok l' /\ Permutation l' l /\ heapFrom 0 l' (length l').
Proof.
  induction i as [|i IH]; intros l Hok H; cbn [h_init_loop].
  - exists l. auto.
  - destruct (h_down_ok (S (length l)) i l i (length l)) as (l1 & E1 & HP & HH & _); auto; try lia.
    { split.
      - intros k a b Hk Hkn Hs Hne. apply (H k); auto. lia.
      - intros Hi Hs. pose proof (par_lt i Hi). lia. }
    rewrite E1. cbn [bind]. rewrite <- (Permutation_length HP). rewrite <- (Permutation_length HP) in HH.
    destruct (IH l1) as (l2 & E2 & HP2 & H2); auto.
    { eapply allk_perm; [symmetry|]; eauto. }
    exists l2. split; auto. split; auto. rewrite HP2; auto.
Qed.

Lemma h_init_ok l : allk l ->
  exists l', h_init cmp l = Ok l' /\ Permutation l' l /\ heapFrom 0 l' (length l').
Proof.
  intros Hok. apply h_init_loop_ok; auto. intros k a b Hk Hkn Hs _ _. exfalso.
  assert (Hd : 2 * par k + 1 <= k).
  { unfold par. pose proof (Nat.mul_div_le (k - 1) 2 ltac:(lia)). lia. }
  pose proof (Nat.div_mod (length l) 2 ltac:(lia)). pose proof (Nat.mod_upper_bound (length l) 2 ltac:(lia)). lia.
Qed.

Lemma heapFrom_nil : heapFrom 0 [] 0.
Proof. intros k a b H1 H2. lia. Qed.
End HeapFacts.
