(** * Ordered: iteration in a user-defined order
    (tree.go:114-131, packer_iter.go:41-108, set.go:77-83, 106-126, 159-161). *)
From Coq Require Import Sorted.
From Verif Require Import Base Bits Env EnvFacts Node NodeWf NodeAdd NodeRemove NodeBin NodeBin2 NodeUn Iter Tree TreeFacts SetApi SetFacts GoHeap.
Local Open Scope Z_scope.

Section Ordered.
Context {E : Env} {T : Type} {K : Key T}.

(** packer_iter.go:63-65 [ordered.Less] on elements: the greatest element is on top. *)
Definition o_less (less : T -> T -> bool) (a b : T) : bool := less b a.
(** packer_iter.go:106-108 [reverseOrdered.Less] on elements. *)
Definition r_less (less : T -> T -> bool) (a b : T) : bool := o_less less b a.

(** tree.go:122-127: one round of the loop. *)
Definition o_step (less : T -> T -> bool) (n : Z) (o : list T) (v : T) : res (list T) :=
  o1 <- h_push (o_less less) o v ;;
  if n <? Z.of_nat (length o1) then rmap snd (h_pop (o_less less) o1) else Ok o1.

(** tree.go:114-131 [OrderedIterator]: the slice of elements inside the iterator (empty for
    [Empty[T]()], whose [Next] also returns false at once).
    Simplification: [heap.Push(o, v)] passes [v] through [any]; for an interface type [T] and a nil
    element the assertion [x.(T)] panics, which is not modelled. *)
Definition t_orderedIterator (less : T -> T -> bool) (n : Z) (t : tree T) : res (list T) :=
  let n := if ((n <? 0) || (t_count t <? n))%bool then t_count t else n in
  if n =? 0 then Ok []
  else
    match t_root t with
    | None => Panic                                                     (* nil receiver *)
    | Some _ =>
        vs <- t_range t ;;
        o <- foldM (o_step less n) [] vs ;;
        h_init (r_less less) o
    end.

(** packer_iter.go:93-99 [Next] and 101-103 [Value]: [None] when [Next] returns false, else the value
    and the elements left. *)
Definition o_next (less : T -> T -> bool) (o : list T) : res (option (T * list T)) :=
  match o with
  | [] => Ok None
  | _ => rmap Some (h_pop (r_less less) o)
  end.

(** [for i := ...; i.Next(); { result = append(result, i.Value()) }]. *)
Fixpoint o_drain (fuel : nat) (less : T -> T -> bool) (o : list T) : res (list T) :=
  match fuel with
  | O => Fuel
  | S k =>
      r <- o_next less o ;;
      match r with
      | None => Ok []
      | Some (v, o') => vs <- o_drain k less o' ;; Ok (v :: vs)
      end
  end.

(** set.go:110: the loop of [OrderedFirstN], which stops after [room] values. *)
Fixpoint o_take (fuel : nat) (less : T -> T -> bool) (room : Z) (o : list T) : res (list T) :=
  match fuel with
  | O => Fuel
  | S k =>
      r <- o_next less o ;;
      match r with
      | None => Ok []
      | Some (v, o') =>
          if 0 <? room then vs <- o_take k less (room - 1) o' ;; Ok (v :: vs) else Ok []
      end
  end.

(** set.go:159-161 [OrderedRange]. *)
Definition s_orderedRange (less : T -> T -> bool) (s : set T) : res (list T) :=
  t_orderedIterator less (s_count s) (s_tree s).

(** set.go:77-83 [OrderedElements]. (The length is only used as recursion fuel.) *)
Definition s_orderedElements (less : T -> T -> bool) (s : set T) : res (list T) :=
  o <- s_orderedRange less s ;; o_drain (S (length o)) less o.

(** set.go:106-113 [OrderedFirstN]: [make] panics on a negative capacity. *)
Definition s_orderedFirstN (n : Z) (less : T -> T -> bool) (s : set T) : res (list T) :=
  if n <? 0 then Panic
  else o <- t_orderedIterator less n (s_tree s) ;; o_take (S (length o)) less n o.

(** set.go:116-121 [First]. *)
Definition s_first (less : T -> T -> bool) (s : set T) : res T :=
  l <- s_orderedFirstN 1 less s ;;
  match l with x :: _ => Ok x | [] => Panic end.

(** set.go:124-126 [FirstN]. *)
Definition s_firstN (n : Z) (less : T -> T -> bool) (s : set T) : res (set T) :=
  l <- s_orderedFirstN n less s ;; s_new l.

End Ordered.

(** [less] is a strict weak order on the values [vok]. *)
Record StrictWeak {T} (vok : T -> Prop) (less : T -> T -> bool) : Prop := {
  sw_irrefl : forall a, vok a -> less a a = false;
  sw_trans : forall a b c, vok a -> vok b -> vok c -> less a b = true -> less b c = true -> less a c = true;
  sw_neg : forall a b c, vok a -> vok b -> vok c -> less a c = true -> less a b = true \/ less b c = true;
}.

Arguments sw_irrefl {T vok less} _ _ _.
Arguments sw_trans {T vok less} _ _ _ _ _ _ _ _ _.
Arguments sw_neg {T vok less} _ _ _ _ _ _ _ _.

(** No element comes before an earlier one. *)
Definition inOrder {T} (less : T -> T -> bool) (l : list T) : Prop :=
  StronglySorted (fun a b => less b a = false) l.

Section OrderedFacts.
Local Opaque maxTreeDepth fanout fb.
Context {E : Env} {HE : EnvOk E} {T : Type} {K : Key T} {vok : T -> Prop} {KO : KeyOk K vok}.
Context (less : T -> T -> bool) (SW : StrictWeak vok less).
Notation allok := (allok vok).

Local Notation oheap o := (heapFrom (o_less less) 0 o (length o)).
Local Notation rheap o := (heapFrom (r_less less) 0 o (length o)).

Lemma o_irrefl a : vok a -> o_less less a a = false.
Proof. apply (sw_irrefl SW). Qed.
Lemma o_trans a b c : vok a -> vok b -> vok c -> o_less less a b = true -> o_less less b c = true -> o_less less a c = true.
Proof. unfold o_less. intros. apply (sw_trans SW c b a); auto. Qed.
Lemma o_neg a b c : vok a -> vok b -> vok c -> o_less less a c = true -> o_less less a b = true \/ o_less less b c = true.
Proof. unfold o_less. intros Ha Hb Hc H. destruct (sw_neg SW c b a); auto. Qed.

Lemma o_step_ok n o v d : (0 < n)%Z -> allok o -> vok v -> allok d -> oheap o -> Z.of_nat (length o) <= n ->
  (d <> [] -> Z.of_nat (length o) = n) -> (forall x y, In x d -> In y o -> less x y = false) ->
  exists o' d', o_step less n o v = Ok o' /\ oheap o' /\ Permutation (o' ++ d') (v :: o ++ d) /\
    Z.of_nat (length o') <= n /\ (d' <> [] -> Z.of_nat (length o') = n) /\
    (forall x y, In x d' -> In y o' -> less x y = false).
Proof.
  intros Hn Hoo Hv Hod HH Hlen Hfull Hd. unfold o_step.
  destruct (h_push_ok (o_less less) vok o_irrefl o_trans o_neg o v Hoo Hv HH) as (o1 & E1 & HP1 & HH1).
  rewrite E1. cbn [bind]. pose proof (Permutation_length HP1) as HL1. simpl in HL1.
  assert (Hoo1 : allok o1). { intros e He. apply (Permutation_in e HP1) in He as [<-|He]; auto. }
  destruct (Z.ltb_spec n (Z.of_nat (length o1))) as [Hl|Hl].
  - assert (Hne : o1 <> []). { intros ->. simpl in HL1. lia. }
    destruct (h_pop_ok (o_less less) vok o_irrefl o_trans o_neg o1 Hoo1 Hne HH1) as (m & o2 & E2 & HP2 & HH2 & Hmax).
    rewrite E2. cbn [rmap snd]. exists o2, (m :: d).
    pose proof (Permutation_length HP2) as HL2. simpl in HL2.
    assert (HPt : Permutation (m :: o2) (v :: o)) by (rewrite HP2; auto).
    split; auto. split; auto. split.
    { rewrite <- Permutation_middle. change (v :: o ++ d) with ((v :: o) ++ d). rewrite <- HPt. reflexivity. }
    split; [lia|]. split; [intros; lia|].
    assert (Hoo2 : allok o2). { intros e He. apply Hoo1. apply (Permutation_in e HP2). right; auto. }
    assert (Hom : vok m). { apply Hoo1. apply (Permutation_in m HP2). left; auto. }
    intros x y [<-|Hx] Hy.
    + apply (Hmax y Hy).
    + assert (Hy' : In y (v :: o)) by (apply (Permutation_in y HPt); right; auto).
      assert (Hm' : In m (v :: o)) by (apply (Permutation_in m HPt); left; auto).
      destruct Hy' as [<-|Hy']; [|auto]. destruct Hm' as [<-|Hm'].
      * apply Permutation_cons_inv in HPt. apply Hd; auto. apply (Permutation_in v HPt); auto.
      * destruct (less x v) eqn:El; auto. exfalso.
        destruct (sw_neg SW x m v) as [HA|HA]; auto.
        -- rewrite (Hd x m) in HA; auto. discriminate.
        -- pose proof (Hmax v Hy) as HB. unfold le, o_less in HB. congruence.
  - exists o1, d. split; auto. split; auto. split.
    { change (v :: o ++ d) with ((v :: o) ++ d). rewrite HP1. reflexivity. }
    split; [lia|]. assert (d = []) as ->.
    { destruct d; auto. exfalso. pose proof (Hfull ltac:(discriminate)). lia. }
    split; [congruence|]. intros x y [].
Qed.

Lemma o_fold_ok n vs : (0 < n)%Z -> allok vs -> forall o d, allok o -> allok d -> oheap o -> Z.of_nat (length o) <= n ->
  (d <> [] -> Z.of_nat (length o) = n) -> (forall x y, In x d -> In y o -> less x y = false) ->
  exists o' d', foldM (o_step less n) o vs = Ok o' /\ Permutation (o' ++ d') (vs ++ o ++ d) /\
    Z.of_nat (length o') <= n /\ (d' <> [] -> Z.of_nat (length o') = n) /\
    (forall x y, In x d' -> In y o' -> less x y = false).
Proof.
  intros Hn. induction vs as [|v vs IH]; intros Hvs o d Hoo Hod HH Hlen Hfull Hd; cbn [foldM].
  - exists o, d. auto.
  - destruct (o_step_ok n o v d Hn Hoo (Hvs v (or_introl eq_refl)) Hod HH Hlen Hfull Hd)
      as (o1 & d1 & E1 & HH1 & HP1 & Hl1 & Hf1 & Hd1).
    rewrite E1. cbn [bind].
    assert (Hal : allok (o1 ++ d1)).
    { intros e He. apply (Permutation_in e HP1) in He as [<-|He]; [apply Hvs; left; auto|].
      apply in_app_or in He as [He|He]; auto. }
    destruct (IH (fun e He => Hvs e (or_intror He)) o1 d1) as (o2 & d2 & E2 & HP2 & Hr); auto.
    { intros e He. apply Hal. apply in_or_app; auto. }
    { intros e He. apply Hal. apply in_or_app; auto. }
    exists o2, d2. split; auto. split; auto. rewrite HP2, HP1. simpl.
    symmetry. apply Permutation_middle.
Qed.

(** What [OrderedIterator] holds: [min n count] elements (all of them if [n] is negative), none of
    which comes after an element left out. *)
Lemma t_orderedIterator_ok n t : tok vok t ->
  exists o d, t_orderedIterator less n t = Ok o /\ Permutation (o ++ d) (tel t) /\ rheap o /\
    Z.of_nat (length o) = (if n <? 0 then t_count t else Z.min n (t_count t)) /\
    (forall x y, In x d -> In y o -> less x y = false).
Proof.
  intros Ht. pose proof (tok_count _ Ht) as Hc. unfold t_orderedIterator.
  set (m := if ((n <? 0) || (t_count t <? n))%bool then t_count t else n).
  assert (Hm : m = if n <? 0 then t_count t else Z.min n (t_count t)).
  { unfold m. destruct (Z.ltb_spec n 0); simpl; auto. destruct (Z.ltb_spec (t_count t) n); lia. }
  rewrite <- Hm. clearbody m. destruct (Z.eqb_spec m 0) as [E0|E0].
  { exists [], (tel t). split; auto. split; auto. split; [apply heapFrom_nil|]. split; [auto|]. intros x y _ []. }
  assert (Hpos : 0 < m <= t_count t). { destruct (Z.ltb_spec n 0) in Hm; lia. }
  destruct (t_root t) as [r|] eqn:Er.
  2:{ exfalso. unfold tel in Hc. rewrite Er in Hc. simpl in Hc. lia. }
  rewrite (t_range_ok (vok := vok)) by auto. cbn [bind].
  destruct (o_fold_ok m (tel t) (proj1 Hpos) (tok_allok _ Ht) [] []) as (o & d & E1 & HP & Hl & Hf & Hd).
  { intros e []. } { intros e []. } { apply heapFrom_nil. } { simpl; lia. } { congruence. } { intros x y []. }
  rewrite E1. cbn [bind]. rewrite !app_nil_r in HP.
  destruct (h_init_ok (r_less less) vok) with (l := o) as (o' & E2 & HP2 & HH2).
  { intros a Ha. apply (sw_irrefl SW); auto. }
  { intros a b c. apply (sw_trans SW). }
  { intros a b c. apply (sw_neg SW). }
  { intros e He. apply (tok_allok _ Ht). apply (Permutation_in e HP). apply in_or_app; auto. }
  exists o', d. split; auto. split; [rewrite HP2; auto|]. split; auto. split.
  - rewrite (Permutation_length HP2). pose proof (Permutation_length HP) as HL. rewrite app_length in HL.
    destruct d as [|x d]; [simpl in HL; lia|]. apply Hf. discriminate.
  - intros x y Hx Hy. apply Hd; auto. apply (Permutation_in y HP2); auto.
Qed.

Lemma o_next_ok o : allok o -> rheap o ->
  match o with
  | [] => o_next less o = Ok None
  | _ => exists x o', o_next less o = Ok (Some (x, o')) /\ Permutation (x :: o') o /\ rheap o' /\ allok o' /\
           (forall e, In e o' -> less e x = false)
  end.
Proof.
  intros Ho HH. destruct o as [|y o0] eqn:Eo; auto. rewrite <- Eo in *.
  destruct (h_pop_ok (r_less less) vok) with (l := o) as (x & o' & E1 & HP & HH' & Hmin); auto.
  { intros a Ha. apply (sw_irrefl SW); auto. }
  { intros a b c. apply (sw_trans SW). }
  { intros a b c. apply (sw_neg SW). }
  { rewrite Eo. discriminate. }
  exists x, o'. split; [|repeat split; auto].
  - unfold o_next. rewrite E1. rewrite Eo. reflexivity.
  - intros e He. apply Ho. apply (Permutation_in e HP). right; auto.
Qed.

Lemma o_drain_ok fuel : forall o, (length o < fuel)%nat -> allok o -> rheap o ->
  exists l, o_drain fuel less o = Ok l /\ Permutation l o /\ inOrder less l.
Proof.
  induction fuel as [|fuel IH]; intros o Hf Ho HH; [lia|]. cbn [o_drain].
  pose proof (o_next_ok o Ho HH) as HN. destruct o as [|y o0] eqn:Eo.
  - rewrite HN. cbn [bind]. exists []. split; auto. split; auto. constructor.
  - rewrite <- Eo in *. destruct HN as (x & o' & E1 & HP & HH' & Ho' & Hmin). rewrite E1. cbn [bind].
    pose proof (Permutation_length HP) as HL. simpl in HL.
    destruct (IH o') as (l & E2 & HP2 & HS); auto; [lia|]. rewrite E2. cbn [bind].
    exists (x :: l). split; auto. split; [rewrite HP2; auto|]. constructor; auto.
    apply Forall_forall. intros e He. apply Hmin. apply (Permutation_in e HP2); auto.
Qed.

Lemma o_take_ok fuel : forall o room, (length o < fuel)%nat -> allok o -> rheap o -> Z.of_nat (length o) <= room ->
  exists l, o_take fuel less room o = Ok l /\ Permutation l o /\ inOrder less l.
Proof.
  induction fuel as [|fuel IH]; intros o room Hf Ho HH Hr; [lia|]. cbn [o_take].
  pose proof (o_next_ok o Ho HH) as HN. destruct o as [|y o0] eqn:Eo.
  - rewrite HN. cbn [bind]. exists []. split; auto. split; auto. constructor.
  - rewrite <- Eo in *. destruct HN as (x & o' & E1 & HP & HH' & Ho' & Hmin). rewrite E1. cbn [bind].
    pose proof (Permutation_length HP) as HL. simpl in HL.
    destruct (Z.ltb_spec 0 room); [|lia].
    destruct (IH o' (room - 1)) as (l & E2 & HP2 & HS); auto; [lia|lia|]. rewrite E2. cbn [bind].
    exists (x :: l). split; auto. split; [rewrite HP2; auto|]. constructor; auto.
    apply Forall_forall. intros e He. apply Hmin. apply (Permutation_in e HP2); auto.
Qed.

Lemma s_orderedElements_ok s : sok vok s ->
  exists l, s_orderedElements less s = Ok l /\ Permutation l (sel s) /\ inOrder less l.
Proof.
  intros Hs. unfold s_orderedElements, s_orderedRange, s_count.
  destruct (t_orderedIterator_ok (t_count (s_tree s)) (s_tree s) Hs) as (o & d & E1 & HP & HH & HL & _).
  rewrite E1. cbn [bind]. pose proof (tok_count _ Hs) as Hc.
  assert (d = []) as ->.
  { pose proof (Permutation_length HP) as HL2. rewrite app_length in HL2.
    destruct (Z.ltb_spec (t_count (s_tree s)) 0); destruct d; auto; simpl in HL2; lia. }
  rewrite app_nil_r in HP.
  destruct (o_drain_ok (S (length o)) o) as (l & E2 & HP2 & HS); auto.
  { intros e He. apply (tok_allok _ Hs). apply (Permutation_in e HP); auto. }
  exists l. split; auto. split; auto. rewrite HP2. auto.
Qed.

Lemma s_orderedFirstN_ok s n : sok vok s -> 0 <= n ->
  exists l d, s_orderedFirstN n less s = Ok l /\ Permutation (l ++ d) (sel s) /\ inOrder less l /\
    Z.of_nat (length l) = Z.min n (s_count s) /\
    (forall x y, In x d -> In y l -> less x y = false).
Proof.
  intros Hs Hn. unfold s_orderedFirstN. destruct (Z.ltb_spec n 0); [lia|].
  destruct (t_orderedIterator_ok n (s_tree s) Hs) as (o & d & E1 & HP & HH & HL & Hd).
  destruct (Z.ltb_spec n 0); [lia|]. rewrite E1. cbn [bind].
  destruct (o_take_ok (S (length o)) o n) as (l & E2 & HP2 & HS); auto.
  { intros e He. apply (tok_allok _ Hs). apply (Permutation_in e HP). apply in_or_app; auto. }
  { lia. }
  exists l, d. split; auto. split; [rewrite HP2; auto|]. split; auto. split.
  - rewrite (Permutation_length HP2). auto.
  - intros x y Hx Hy. apply Hd; auto. apply (Permutation_in y HP2); auto.
Qed.

Lemma s_first_ok s : sok vok s ->
  match sel s with
  | [] => s_first less s = Panic
  | _ => exists x, s_first less s = Ok x /\ In x (sel s) /\ forall e, In e (sel s) -> less e x = false
  end.
Proof.
  intros Hs. unfold s_first. destruct (s_orderedFirstN_ok s 1 Hs) as (l & d & E1 & HP & HS & HL & Hd); [lia|].
  rewrite E1. cbn [bind]. rewrite (s_count_ok s Hs) in HL.
  destruct (sel s) as [|y r] eqn:El.
  - destruct l; auto. simpl in HL. lia.
  - rewrite <- El in *. destruct l as [|x [|z l]].
    + rewrite El in HL. simpl length in HL. lia.
    + exists x. split; auto. split; [apply (Permutation_in x HP); left; auto|].
      intros e He. apply (Permutation_in e (Permutation_sym HP)) in He. destruct He as [<-|He].
      * apply (sw_irrefl SW). apply (sok_allok s Hs). apply (Permutation_in x HP). left; auto.
      * apply Hd; auto. left; auto.
    + simpl length in HL. lia.
Qed.

Lemma s_firstN_ok s n : sok vok s -> 0 <= n ->
  exists l d r, s_orderedFirstN n less s = Ok l /\ s_firstN n less s = Ok r /\ sok vok r /\
    Permutation (sel r) l /\ Permutation (l ++ d) (sel s) /\
    (forall x y, In x d -> In y l -> less x y = false) /\ inOrder less l /\
    s_count r = Z.min n (s_count s).
Proof.
  intros Hs Hn. destruct (s_orderedFirstN_ok s n Hs Hn) as (l & d & E1 & HP & HS & HL & Hd).
  assert (Hall : allok (l ++ d)).
  { intros e He. apply (sok_allok s Hs). apply (Permutation_in e HP); auto. }
  assert (Hdis : distinct (l ++ d)).
  { apply (distinct_perm (vok := vok)) with (l1 := sel s); auto using sok_allok, sok_distinct, Permutation_sym. }
  apply allok_app in Hall as [Hol _]. apply distinct_app in Hdis as [Hdl _].
  destruct (s_new_ok l Hol) as (r & E2 & Hr & Hl).
  assert (HPr : Permutation (sel r) l).
  { apply (lookup_perm (vok := vok)); auto using sok_allok, sok_distinct.
    intros w Hw. rewrite Hl by auto. apply (findLast_distinct (vok := vok)); auto. }
  exists l, d, r. split; auto. split; [unfold s_firstN; rewrite E1; exact E2|].
  split; auto. split; auto. split; auto. split; auto. split; auto.
  rewrite (s_count_ok r Hr), (Permutation_length HPr). auto.
Qed.

Lemma s_orderedFirstN_neg s n : n < 0 -> s_orderedFirstN n less s = Panic.
Proof. intros H. unfold s_orderedFirstN. destruct (Z.ltb_spec n 0); auto; lia. Qed.
End OrderedFacts.
