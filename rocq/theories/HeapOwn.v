(** * HeapOwn: builders change their nodes in place, and still compute what the pure model says.

    [own h p n L R]: the object at [p] holds the node [n]; it consists of the objects [L] and the arrays [R], and every
    twig in it uses all claimed slots of its array. When [L] and [R] have no duplicates (no sharing inside the tree),
    Add and Remove on the heap agree with [add] and [remove_] of Node.v. *)
From Verif Require Import Base Bits Env EnvFacts Node NodeWf NodeAdd NodeRemove HeapModel HeapFrame.
Local Open Scope nat_scope.

Lemma nth_error_Some_lt {A} (l : list A) i x : nth_error l i = Some x -> i < length l.
Proof. intros H. apply nth_error_Some. congruence. Qed.

Lemma NoDup_split {A} (X Y Z : list A) : NoDup (X ++ Y ++ Z) ->
  NoDup Y /\ (forall a, In a X -> ~ In a Y) /\ (forall a, In a Z -> ~ In a Y).
Proof.
  induction X as [|x X IH]; cbn; intros H.
  - induction Y as [|y Y IH]; cbn in *; [split; [constructor|split; [tauto|auto]]|].
    inversion H as [|? ? H1 H2]; subst. destruct (IH H2) as (N1 & _ & N3).
    split; [constructor; auto; intros Hy; apply H1; apply in_or_app; auto|]. split; [tauto|].
    intros a Ha [<-|Hy]; [apply H1; apply in_or_app; auto|eapply N3; eauto].
  - inversion H as [|? ? H1 H2]; subst. destruct (IH H2) as (N1 & N2 & N3). split; auto. split; auto.
    intros a [<-|Ha]; auto. intros Hy. apply H1. apply in_or_app; right. apply in_or_app; auto.
Qed.

(** Replacing a part of a list without duplicates by some of its own members and new ones. *)
Lemma NoDup_swap (N : nat) (X Y Y' Z : list nat) :
  NoDup (X ++ Y ++ Z) -> NoDup Y' -> (forall a, In a (X ++ Z) -> a < N) -> (forall a, In a Y' -> In a Y \/ N <= a) ->
  NoDup (X ++ Y' ++ Z).
Proof.
  intros H HY HN Hin. induction X as [|x X IH]; cbn in *.
  - assert (HZ : NoDup Z). { clear - H. induction Y; cbn in *; auto. inversion H; auto. }
    destruct (NoDup_split [] Y Z H) as (_ & _ & HYZ).
    clear H. induction Y' as [|y Y' IH]; cbn; auto. inversion HY as [|? ? H1 H2]; subst. constructor.
    + intros Hi. apply in_app_or in Hi as [Hi|Hi]; auto. destruct (Hin y) as [Hy|Hy]; [left; auto| |].
      * apply (HYZ y); auto.
      * specialize (HN y Hi). lia.
    + apply IH; auto. intros a Ha. apply Hin. right; auto.
  - inversion H as [|? ? H1 H2]; subst. constructor; [|apply IH; auto].
    intros Hi. apply in_app_or in Hi as [Hi|Hi]; [apply H1; apply in_or_app; auto|].
    apply in_app_or in Hi as [Hi|Hi]; [|apply H1; apply in_or_app; right; apply in_or_app; auto].
    destruct (Hin x Hi) as [Hy|Hy]; [apply H1; apply in_or_app; right; apply in_or_app; auto|].
    specialize (HN x (or_introl eq_refl)). lia.
Qed.

Section Own.
Context {E : Env} {T : Type} {K : Key T} (grow : nat -> nat -> nat).
Notation obj := (obj (T := T)).
Notation heap := (heap (T := T)).
Notation array := (array (T := T)).
Notation M := (M (T := T)).
Notation node := (node T).
Local Opaque maxTreeDepth fanout fb.

(** ** Shapes *)

(** Twigs sit at the maximal depth only and have at least three elements; with [lim], branches sit above it. *)
Inductive shape (lim : bool) : nat -> node -> Prop :=
| shape_leaf1 d a : shape lim d (Leaf1 a)
| shape_leaf2 d a b : shape lim d (Leaf2 a b)
| shape_twig d l : maxTreeDepth <= d -> 3 <= length l -> shape lim d (Twig l)
| shape_branch d m data : (lim = true -> d < maxTreeDepth) -> length data = fanout ->
    (forall i c, child data i = Some c -> shape lim (S d) c) -> shape lim d (Branch m data).

Lemma shape_set lim d m m' data i o : shape lim d (Branch m data) -> (forall c, o = Some c -> shape lim (S d) c) ->
  shape lim d (Branch m' (set_nth data i o)).
Proof.
  inversion 1 as [| | |d' m0 data' H1 H2 H3]; subst. intros Ho. constructor; auto; [rewrite set_nth_length; auto|].
  intros j c. destruct (Nat.eq_dec i j) as [<-|Hn].
  - destruct (Nat.lt_ge_cases i (length data)) as [Hl|Hl].
    + rewrite child_set_eq by auto. auto.
    + rewrite child_overflow by (rewrite set_nth_length; auto). discriminate.
  - rewrite child_set_ne by auto. eauto.
Qed.

Lemma shape_empty lim d : (lim = true -> d < maxTreeDepth) -> shape lim d (newBranch emptyPacker).
Proof.
  intros H. constructor; auto; [apply emptyData_length|]. intros i c Hc. change (child emptyData i = Some c) in Hc. rewrite child_emptyData in Hc. discriminate.
Qed.

(** ** Ownership *)

Inductive own (h : heap) : nat -> node -> list nat -> list nat -> Prop :=
| own_leaf1 p a : nth_error (h_objs h) p = Some (OLeaf1 a) -> own h p (Leaf1 a) [p] []
| own_leaf2 p a b : nth_error (h_objs h) p = Some (OLeaf2 a b) -> own h p (Leaf2 a b) [p] []
| own_twig p r a l : nth_error (h_objs h) p = Some (OTwig r (length l)) -> nth_error (h_arrs h) r = Some a ->
    a_used a = length l -> firstn (length l) (a_slots a) = l -> own h p (Twig l) [p] [r]
| own_branch p m d ds L R : nth_error (h_objs h) p = Some (OBranch m d) -> owns h d ds L R ->
    own h p (Branch m ds) (p :: L) R
with owns (h : heap) : list (option nat) -> list (option node) -> list nat -> list nat -> Prop :=
| owns_nil : owns h [] [] [] []
| owns_none d ds L R : owns h d ds L R -> owns h (None :: d) (None :: ds) L R
| owns_some c n d ds L R L' R' : own h c n L R -> owns h d ds L' R' ->
    owns h (Some c :: d) (Some n :: ds) (L ++ L') (R ++ R').

Scheme own_ind2 := Minimality for own Sort Prop with owns_ind2 := Minimality for owns Sort Prop.
Combined Scheme own_mut from own_ind2, owns_ind2.

Lemma own_root h p n L R : own h p n L R -> In p L.
Proof. inversion 1; cbn; auto. Qed.

(** Ownership depends on the owned objects and arrays only. *)
Lemma own_agree_mut (h h' : heap) :
  (forall p n L R, own h p n L R -> (forall q, In q L -> nth_error (h_objs h') q = nth_error (h_objs h) q) ->
     (forall r, In r R -> nth_error (h_arrs h') r = nth_error (h_arrs h) r) -> own h' p n L R) /\
  (forall d ds L R, owns h d ds L R -> (forall q, In q L -> nth_error (h_objs h') q = nth_error (h_objs h) q) ->
     (forall r, In r R -> nth_error (h_arrs h') r = nth_error (h_arrs h) r) -> owns h' d ds L R).
Proof.
  apply (own_mut h (fun p n L R => (forall q, In q L -> nth_error (h_objs h') q = nth_error (h_objs h) q) ->
     (forall r, In r R -> nth_error (h_arrs h') r = nth_error (h_arrs h) r) -> own h' p n L R)
    (fun d ds L R => (forall q, In q L -> nth_error (h_objs h') q = nth_error (h_objs h) q) ->
     (forall r, In r R -> nth_error (h_arrs h') r = nth_error (h_arrs h) r) -> owns h' d ds L R)).
  - intros p a H HL HR. constructor. rewrite HL; cbn; auto.
  - intros p a b H HL HR. constructor. rewrite HL; cbn; auto.
  - intros p r a l H1 H2 H3 H4 HL HR. econstructor; eauto; [rewrite HL; cbn; auto|rewrite HR; cbn; auto].
  - intros p m d ds L R H _ IH HL HR. econstructor; [rewrite HL; cbn; eauto|]. apply IH; auto. intros q Hq. apply HL. cbn; auto.
  - intros _ _. constructor.
  - intros d ds L R _ IH HL HR. constructor; auto.
  - intros c n d ds L R L' R' _ IH1 _ IH2 HL HR. constructor.
    + apply IH1; intros q Hq; [apply HL|apply HR]; apply in_or_app; auto.
    + apply IH2; intros q Hq; [apply HL|apply HR]; apply in_or_app; auto.
Qed.
Definition own_agree h h' := proj1 (own_agree_mut h h').
Definition owns_agree h h' := proj2 (own_agree_mut h h').

(** Everything owned lies in a closed region that contains the root. *)
Lemma own_closed_mut (P Q : nat -> Prop) (h : heap) : closed P Q h ->
  (forall p n L R, own h p n L R -> P p -> (forall q, In q L -> P q) /\ (forall r, In r R -> Q r)) /\
  (forall d ds L R, owns h d ds L R -> (forall c, In (Some c) d -> P c) -> (forall q, In q L -> P q) /\ (forall r, In r R -> Q r)).
Proof.
  intros Hc. apply (own_mut h (fun p n L R => P p -> (forall q, In q L -> P q) /\ (forall r, In r R -> Q r))
    (fun d ds L R => (forall c, In (Some c) d -> P c) -> (forall q, In q L -> P q) /\ (forall r, In r R -> Q r))).
  - intros p a H Hp. split; [intros q [<-|[]]; auto|intros r []].
  - intros p a b H Hp. split; [intros q [<-|[]]; auto|intros r []].
  - intros p r a l H1 H2 H3 H4 Hp. specialize (Hc p _ Hp H1). cbn in Hc. split; [intros q [<-|[]]; auto|intros r' [<-|[]]; auto].
  - intros p m d ds L R H _ IH Hp. specialize (Hc p _ Hp H). cbn in Hc. destruct (IH Hc) as [I1 I2].
    split; auto. intros q [<-|Hq]; auto.
  - intros _. split; intros x [].
  - intros d ds L R _ IH H. apply IH. intros c Hi. apply H. right; auto.
  - intros c n d ds L R L' R' _ IH1 _ IH2 H. destruct (IH1 (H c (or_introl eq_refl))) as [A1 A2].
    destruct (IH2 (fun c Hi => H c (or_intror Hi))) as [B1 B2].
    split; intros x Hx; apply in_app_or in Hx as [Hx|Hx]; auto.
Qed.
Definition own_closed P Q h H := proj1 (own_closed_mut P Q h H).

Lemma own_lt_mut (h : heap) :
  (forall p n L R, own h p n L R -> (forall q, In q L -> q < length (h_objs h)) /\ (forall r, In r R -> r < length (h_arrs h))) /\
  (forall d ds L R, owns h d ds L R -> (forall q, In q L -> q < length (h_objs h)) /\ (forall r, In r R -> r < length (h_arrs h))).
Proof.
  apply (own_mut h (fun p n L R => (forall q, In q L -> q < length (h_objs h)) /\ (forall r, In r R -> r < length (h_arrs h)))
    (fun d ds L R => (forall q, In q L -> q < length (h_objs h)) /\ (forall r, In r R -> r < length (h_arrs h)))).
  - intros p a H. split; [intros q [<-|[]]; eapply nth_error_Some_lt; eauto|intros r []].
  - intros p a b H. split; [intros q [<-|[]]; eapply nth_error_Some_lt; eauto|intros r []].
  - intros p r a l H1 H2 H3 H4. split; intros q [<-|[]]; eapply nth_error_Some_lt; eauto.
  - intros p m d ds L R H _ [I1 I2]. split; auto. intros q [<-|Hq]; auto. eapply nth_error_Some_lt; eauto.
  - split; intros x [].
  - auto.
  - intros c n d ds L R L' R' _ [A1 A2] _ [B1 B2]. split; intros x Hx; apply in_app_or in Hx as [Hx|Hx]; auto.
Qed.
Definition own_lt h := proj1 (own_lt_mut h).
Definition owns_lt h := proj2 (own_lt_mut h).

(** What a tree owns, with the new addresses, is a region. *)
Definition inO (h : heap) (L : list nat) (q : nat) : Prop := In q L \/ length (h_objs h) <= q.
Definition inA (h : heap) (R : list nat) (r : nat) : Prop := In r R \/ length (h_arrs h) <= r.

Lemma own_points_mut (h : heap) :
  (forall p n L R, own h p n L R -> forall q o, In q L -> nth_error (h_objs h) q = Some o -> points (fun x => In x L) (fun x => In x R) o) /\
  (forall d ds L R, owns h d ds L R -> (forall q o, In q L -> nth_error (h_objs h) q = Some o -> points (fun x => In x L) (fun x => In x R) o) /\
     (forall c, In (Some c) d -> In c L)).
Proof.
  assert (Hmono : forall (P P' Q Q' : nat -> Prop) (o : obj), (forall x, P x -> P' x) -> (forall x, Q x -> Q' x) -> points P Q o -> points P' Q' o).
  { intros P P' Q Q' [a|a b|r len|m d] HP HQ; cbn; auto. }
  apply (own_mut h (fun p n L R => forall q o, In q L -> nth_error (h_objs h) q = Some o -> points (fun x => In x L) (fun x => In x R) o)
    (fun d ds L R => (forall q o, In q L -> nth_error (h_objs h) q = Some o -> points (fun x => In x L) (fun x => In x R) o) /\
     (forall c, In (Some c) d -> In c L))).
  - intros p a H q o [<-|[]] Ho. rewrite H in Ho. injection Ho as <-. cbn. auto.
  - intros p a b H q o [<-|[]] Ho. rewrite H in Ho. injection Ho as <-. cbn. auto.
  - intros p r a l H1 H2 H3 H4 q o [<-|[]] Ho. rewrite H1 in Ho. injection Ho as <-. cbn. auto.
  - intros p m d ds L R H _ [I1 I2] q o [<-|Hq] Ho.
    + rewrite H in Ho. injection Ho as <-. cbn. auto.
    + eapply Hmono; [| |eapply I1; eauto]; cbn; auto.
  - split; [intros q o []|intros c []].
  - intros d ds L R _ [I1 I2]. split; auto. intros c [Hc|Hc]; [discriminate|auto].
  - intros c n d ds L R L' R' H1 I1 _ [I2 I3]. split.
    + intros q o Hq Ho. apply in_app_or in Hq as [Hq|Hq].
      * eapply Hmono; [| |eapply I1; eauto]; cbn; intros; apply in_or_app; auto.
      * eapply Hmono; [| |eapply I2; eauto]; cbn; intros; apply in_or_app; auto.
    + intros c' [[= <-]|Hc]; apply in_or_app; [left; eapply own_root; eauto|auto].
Qed.

Lemma own_roomy h p n L R : own h p n L R -> roomy (inO h L) (inA h R) h.
Proof.
  intros H. split; [|split; intros x Hx; right; auto]. intros q o [Hq|Hq] Ho.
  - pose proof (proj1 (own_points_mut h) _ _ _ _ H q o Hq Ho) as Hp. unfold inO, inA. destruct o; cbn in *; auto.
  - apply nth_error_Some_lt in Ho. lia.
Qed.

(** The children. *)
Inductive owno (h : heap) : option nat -> option node -> list nat -> list nat -> Prop :=
| owno_none : owno h None None [] []
| owno_some p n L R : own h p n L R -> owno h (Some p) (Some n) L R.

Lemma owns_child h d ds L R i : owns h d ds L R -> i < length d ->
  exists L1 Lc L2 R1 Rc R2, L = L1 ++ Lc ++ L2 /\ R = R1 ++ Rc ++ R2 /\ owno h (childP d i) (child ds i) Lc Rc /\
    forall h' x y Lc' Rc', owno h' x y Lc' Rc' ->
      (forall q, In q (L1 ++ L2) -> nth_error (h_objs h') q = nth_error (h_objs h) q) ->
      (forall r, In r (R1 ++ R2) -> nth_error (h_arrs h') r = nth_error (h_arrs h) r) ->
      owns h' (set_nth d i x) (set_nth ds i y) (L1 ++ Lc' ++ L2) (R1 ++ Rc' ++ R2).
Proof.
  intros H. revert i. induction H as [|d ds L R H IH|c n d ds L R L' R' H1 H2 IH]; intros i Hi; cbn in Hi; [lia| |].
  - destruct i as [|i].
    + exists [], [], L, [], [], R. split; auto. split; auto. split; [constructor|].
      intros h' x y Lc' Rc' Ho HL HR. cbn. destruct Ho as [|p n Lp Rp Ho].
      * cbn. constructor. eapply owns_agree; eauto.
      * constructor; auto. eapply owns_agree; eauto.
    + destruct (IH i) as (L1 & Lc & L2 & R1 & Rc & R2 & EL & ER & Hc & Hset); [lia|].
      exists L1, Lc, L2, R1, Rc, R2. split; auto. split; auto. split; auto.
      intros h' x y Lc' Rc' Ho HL HR. cbn. constructor. auto.
  - destruct i as [|i].
    + exists [], L, L', [], R, R'. split; auto. split; auto. split; [constructor; auto|].
      intros h' x y Lc' Rc' Ho HL HR. cbn. destruct Ho as [|p n' Lp Rp Ho].
      * cbn. constructor. eapply owns_agree; eauto.
      * constructor; auto. eapply owns_agree; eauto.
    + destruct (IH i) as (L1 & Lc & L2 & R1 & Rc & R2 & EL & ER & Hc & Hset); [lia|].
      exists (L ++ L1), Lc, L2, (R ++ R1), Rc, R2. subst.
      split; [rewrite !app_assoc; auto|]. split; [rewrite !app_assoc; auto|]. split; auto.
      intros h' x y Lc' Rc' Ho HL HR. cbn. rewrite <- !app_assoc. constructor.
      * eapply own_agree; eauto; intros q Hq; [apply HL|apply HR]; rewrite <- app_assoc; apply in_or_app; auto.
      * apply Hset; auto; intros q Hq; [apply HL|apply HR]; rewrite <- app_assoc; apply in_or_app; auto.
Qed.

Lemma owns_length h d ds L R : owns h d ds L R -> length d = length ds.
Proof. induction 1; cbn; auto. Qed.


(** ** Running heap computations *)

Lemma bindM_ok {A B} (m : M A) (k : A -> M B) h a h' : m h = (Ok a, h') -> bindM m k h = k a h'.
Proof. unfold bindM. intros ->. auto. Qed.
Lemma bindM_panic {A B} (m : M A) (k : A -> M B) h h' : m h = (Panic, h') -> bindM m k h = (Panic, h').
Proof. unfold bindM. intros ->. auto. Qed.
Lemma bindM_fuel {A B} (m : M A) (k : A -> M B) h h' : m h = (Fuel, h') -> bindM m k h = (Fuel, h').
Proof. unfold bindM. intros ->. auto. Qed.
Lemma load_ok h p (o : obj) : nth_error (h_objs h) p = Some o -> load p h = (Ok o, h).
Proof. unfold load. intros ->. auto. Qed.
Lemma loadArr_ok (h : heap) r a : nth_error (h_arrs h) r = Some a -> loadArr r h = (Ok a, h).
Proof. unfold loadArr. intros ->. auto. Qed.
Lemma elemsOf_ok (h : heap) r len a l : nth_error (h_arrs h) r = Some a -> firstn len (a_slots a) = l ->
  elemsOf (r, len) h = (Ok l, h).
Proof. intros H <-. unfold elemsOf. cbn [fst snd]. erewrite bindM_ok by (apply loadArr_ok; eauto). auto. Qed.

Lemma nth_error_new {A} (l : list A) x : nth_error (l ++ [x]) (length l) = Some x.
Proof. rewrite nth_error_app2, Nat.sub_diag by lia. auto. Qed.

Lemma firstn_set_nth {A} (l : list A) n i x : firstn n (set_nth l i x) = set_nth (firstn n l) i x.
Proof. revert n i; induction l as [|a l IH]; intros [|n] [|i]; cbn; auto. f_equal. auto. Qed.

Lemma replaceFirst_index p g (l : list T) dft :
  replaceFirst p g l = match findIndex p l with Some i => Some (set_nth l i (g (nth i l dft))) | None => None end.
Proof.
  induction l as [|a l IH]; cbn; auto. destruct (p a); cbn; auto. rewrite IH. destruct (findIndex p l); cbn; auto.
Qed.

(** ** Add *)

(** The outcome [o] on the heap agrees with the outcome [r] of the pure model. *)
Definition built (lim : bool) (d : nat) (h : heap) (o : res (nat * Z) * heap) (r : res (node * Z)) (post : nat -> node -> Prop) : Prop :=
  h_over (snd o) = h_over h /\
  match r with
  | Ok (n', m) => exists q L' R', fst o = Ok (q, m) /\ own (snd o) q n' L' R' /\ NoDup L' /\ NoDup R' /\ shape lim d n' /\ post q n'
  | Panic => fst o = Panic
  | Fuel => fst o = Fuel
  end.

Definition isBranch (n : node) : Prop := match n with Branch _ _ => True | _ => False end.
(** Adding to a branch changes it in place. *)
Definition inplace (p : nat) (n : node) (q : nat) (n' : node) : Prop := isBranch n -> q = p /\ isBranch n'.

Lemma add_addFast g fuel : forall (n : node) v d h,
  addFast fuel n v d h = add fuel (mkCombineArgs g veq (fun _ b => b)) n v d h.
Proof.
  induction fuel as [|k IH]; intros n v d h; cbn [addFast add]; auto. destruct n as [a|a b|l|m data]; cbn; auto.
  - destruct (replaceFirst _ _ l); auto. destruct (_ <=? _); auto.
    assert (Hf : forall acc, foldM (fun bm e => '(b', m) <- addFast k (fst bm) e d (newHasher e d) ;; Ok (b', (snd bm + m)%Z)) acc l =
                 foldM (fun bm e => '(b', m) <- add k (mkCombineArgs g veq (fun _ b => b)) (fst bm) e d (newHasher e d) ;; Ok (b', (snd bm + m)%Z)) acc l).
    { induction l as [|e l IHl]; intros acc; cbn; auto. rewrite IH.
      match goal with |- bind ?m _ = _ => destruct m end; cbn; auto. }
    rewrite Hf. match goal with |- bind ?x _ = _ => destruct x as [[b m]| |] end; cbn; auto. rewrite IH. auto.
  - destruct (child data (h_hash h)); auto. rewrite IH. auto.
Qed.

(** The fold of newBranchFrom, given Add on the branch. *)
Lemma fold_own lim d (F : nat -> T -> M (nat * Z)) (G : node -> T -> res (node * Z)) :
  (forall p n v h L R, own h p n L R -> NoDup L -> NoDup R -> shape lim d n -> isBranch n ->
     built lim d h (F p v h) (G n v) (inplace p n)) ->
  forall l b n h L R x, own h b n L R -> NoDup L -> NoDup R -> shape lim d n -> isBranch n ->
  let o := foldMM (fun _ e => F b e) x l h in
  h_over (snd o) = h_over h /\
  match foldM (fun b e => '(b', _) <- G b e ;; Ok b') n l with
  | Ok n' => exists y L' R', fst o = Ok y /\ own (snd o) b n' L' R' /\ NoDup L' /\ NoDup R' /\ shape lim d n' /\ isBranch n'
  | Panic => fst o = Panic
  | Fuel => fst o = Fuel
  end.
Proof.
  intros HF. induction l as [|e l IH]; intros b n h L R x Ho HL HR Hs Hb.
  - cbn. split; auto. exists x, L, R. auto 10.
  - cbn [foldMM foldM]. destruct (HF b n e h L R Ho HL HR Hs Hb) as [Hov Hr].
    destruct (F b e h) as [fo fh] eqn:EF. cbn [fst snd] in *. destruct (G n e) as [[n' m]| |]; cbn [bind].
    + destruct Hr as (q & L' & R' & -> & Ho' & HL' & HR' & Hs' & Hin). destruct (Hin Hb) as [-> Hb'].
      rewrite (bindM_ok _ _ _ _ _ EF). destruct (IH b n' fh L' R' (b, m) Ho' HL' HR' Hs' Hb') as [Hov' Hr'].
      rewrite <- Hov. split; auto.
    + subst fo. rewrite (bindM_panic _ _ _ _ EF). auto.
    + subst fo. rewrite (bindM_fuel _ _ _ _ EF). auto.
Qed.

(** The fold that counts matches. *)
Lemma fold_own_count lim d (F : nat -> T -> M (nat * Z)) (G : node -> T -> res (node * Z)) :
  (forall p n v h L R, own h p n L R -> NoDup L -> NoDup R -> shape lim d n -> isBranch n ->
     built lim d h (F p v h) (G n v) (inplace p n)) ->
  forall l b n h L R m, own h b n L R -> NoDup L -> NoDup R -> shape lim d n -> isBranch n ->
  let o := foldMM (fun m e => '(_, m') <~ F b e ;; ret (m + m')%Z) m l h in
  h_over (snd o) = h_over h /\
  match foldM (fun bm e => '(b', m) <- G (fst bm) e ;; Ok (b', (snd bm + m)%Z)) (n, m) l with
  | Ok (n', m') => exists L' R', fst o = Ok m' /\ own (snd o) b n' L' R' /\ NoDup L' /\ NoDup R' /\ shape lim d n' /\ isBranch n'
  | Panic => fst o = Panic
  | Fuel => fst o = Fuel
  end.
Proof.
  intros HF. induction l as [|e l IH]; intros b n h L R m Ho HL HR Hs Hb.
  - cbn. split; auto. exists L, R. auto 10.
  - cbn [foldMM foldM fst snd]. destruct (HF b n e h L R Ho HL HR Hs Hb) as [Hov Hr].
    destruct (F b e h) as [fo fh] eqn:EF. cbn [fst snd] in *. destruct (G n e) as [[n' m']| |]; cbn [bind].
    + destruct Hr as (q & L' & R' & -> & Ho' & HL' & HR' & Hs' & Hin). destruct (Hin Hb) as [-> Hb'].
      erewrite (bindM_ok _ _ h) by (rewrite (bindM_ok _ _ _ _ _ EF); reflexivity).
      destruct (IH b n' fh L' R' (m + m')%Z Ho' HL' HR' Hs' Hb') as [Hov' Hr'].
      rewrite <- Hov. split; auto.
    + subst fo. erewrite (bindM_panic _ _ h) by (rewrite (bindM_panic _ _ _ _ EF); reflexivity). auto.
    + subst fo. erewrite (bindM_fuel _ _ h) by (rewrite (bindM_fuel _ _ _ _ EF); reflexivity). auto.
Qed.

(** A new empty branch. *)
Lemma owns_empty (h : heap) : owns h emptyDataP emptyData [] [].
Proof. unfold emptyDataP, emptyData. induction fanout; cbn; constructor; auto. Qed.
Lemma own_emptyBranch (h : heap) : exists h', emptyBranchH h = (Ok (length (h_objs h)), h') /\
  own h' (length (h_objs h)) (newBranch emptyPacker) [length (h_objs h)] [] /\ h_over h' = h_over h /\
  h_arrs h' = h_arrs h.
Proof.
  eexists. split; [reflexivity|]. split; [|split; reflexivity].
  apply (own_branch _ _ _ emptyDataP _ [] []); [cbn; apply nth_error_new|]. apply owns_empty.
Qed.

(** newBranchFrom on a fresh slice. *)
Lemma newBranchFrom_own_with lim d (F : nat -> T -> nat -> N -> M (nat * Z)) (G : node -> T -> nat -> N -> res (node * Z)) r data a h :
  (forall p n v h L R, own h p n L R -> NoDup L -> NoDup R -> shape lim d n -> isBranch n ->
     built lim d h (F p v d (newHasher v d) h) (G n v d (newHasher v d)) (inplace p n)) ->
  nth_error (h_arrs h) r = Some a -> a_used a = length data -> firstn (length data) (a_slots a) = data -> 3 <= length data ->
  let o := newBranchFromH_with F d (r, length data) h in
  h_over (snd o) = h_over h /\
  match newBranchFrom_with G d data with
  | Ok n' => exists q L' R', fst o = Ok q /\ own (snd o) q n' L' R' /\ NoDup L' /\ NoDup R' /\ shape lim d n'
  | Panic => fst o = Panic
  | Fuel => fst o = Fuel
  end.
Proof.
  intros HF Ha Hu Hd H3. unfold newBranchFromH_with, newBranchFrom_with.
  destruct (Nat.leb_spec maxTreeDepth d) as [Hm|Hm].
  - cbn. split; auto. exists (length (h_objs h)), [length (h_objs h)], [r]. split; auto. split.
    { econstructor; [apply nth_error_new|cbn; eauto|auto|auto]. }
    split; [repeat constructor; auto|]. split; [repeat constructor; auto|]. constructor; auto.
  - rewrite (bindM_ok _ _ _ _ _ (elemsOf_ok _ _ _ _ _ Ha Hd)).
    destruct (own_emptyBranch h) as (h1 & E1 & Ho & Hov & _). rewrite (bindM_ok _ _ _ _ _ E1).
    set (b := length (h_objs h)) in *.
    destruct (fold_own lim d (fun p v => F p v d (newHasher v d)) (fun n v => G n v d (newHasher v d)) HF
      data b (newBranch emptyPacker) h1 [b] [] (b, 0%Z) Ho) as [Hov2 Hr].
    { repeat constructor; auto. }
    { constructor. }
    { apply shape_empty; auto. }
    { cbn; auto. }
    destruct (foldMM _ (b, 0%Z) data h1) as [fo fh] eqn:EF. cbn [fst snd] in *.
    destruct (foldM _ (newBranch emptyPacker) data) as [n'| |].
    + destruct Hr as (y & L' & R' & -> & Ho' & HL' & HR' & Hs' & _). rewrite (bindM_ok _ _ _ _ _ EF). cbn.
      split; [congruence|]. exists b, L', R'. auto.
    + subst fo. rewrite (bindM_panic _ _ _ _ EF). cbn. split; [congruence|auto].
    + subst fo. rewrite (bindM_fuel _ _ _ _ EF). cbn. split; [congruence|auto].
Qed.

Local Ltac fin := split; [repeat constructor; cbn; tauto|]; split; [repeat constructor; cbn; tauto|]; split; [constructor; rewrite ?set_nth_length, ?app_length; auto; lia|intros []].

Lemma add_own lim fuel : forall args p n v d h L R,
  own h p n L R -> NoDup L -> NoDup R -> shape lim d n ->
  built lim d h (addH grow fuel (c_eq args) (c_f args) p v d (newHasher v d) h) (add fuel args n v d (newHasher v d)) (inplace p n).
Proof.
  induction fuel as [|k IH]; intros args p n v d h L R Ho HL HR Hs.
  { split; reflexivity. }
  cbn [addH add]. inversion Ho as [p0 a Hp|p0 a b Hp|p0 r a l Hp Hr Hu Hl|p0 m da ds L0 R0 Hp Hds]; subst;
    rewrite (bindM_ok _ _ _ _ _ (load_ok _ _ _ Hp)).
  - (* leaf1 *)
    assert (Hlt := nth_error_Some_lt _ _ _ Hp). destruct (c_eq args a v).
    + split; auto. exists p, [p], []. split; auto. split; [constructor; cbn; apply nth_error_set_nth_eq; auto|].
      fin.
    + split; auto. exists (length (h_objs h)), [length (h_objs h)], []. split; auto.
      split; [constructor; cbn; apply nth_error_new|].
      fin.
  - (* leaf2 *)
    assert (Hlt := nth_error_Some_lt _ _ _ Hp). destruct (c_eq args a v); [|destruct (c_eq args b v)].
    + split; auto. exists p, [p], []. split; auto. split; [constructor; cbn; apply nth_error_set_nth_eq; auto|].
      fin.
    + split; auto. exists p, [p], []. split; auto. split; [constructor; cbn; apply nth_error_set_nth_eq; auto|].
      fin.
    + set (h1 := mkHeap (h_objs h) (h_arrs h ++ [mkArray [a; b; v] 3 3]) (h_over h) (h_log h)).
      assert (E1 : newSlice [a; b; v] h = (Ok (length (h_arrs h), 3), h1)) by reflexivity.
      rewrite (bindM_ok _ _ _ _ _ E1).
      destruct (newBranchFrom_own_with lim d (addH grow k veq (fun _ b => b)) (addFast k) (length (h_arrs h)) [a; b; v]
        (mkArray [a; b; v] 3 3) h1) as [Hov Hr]; auto.
      { intros p' n' v' h' L' R' Ho' HL' HR' Hs' Hb'. rewrite (add_addFast NonParallel).
        apply (IH (mkCombineArgs NonParallel veq (fun _ b => b)) p' n' v' d h' L' R'); auto. }
      { cbn. apply nth_error_new. }
      change (length [a; b; v]) with 3 in *. unfold newBranchFrom.
      destruct (newBranchFromH_with _ d (length (h_arrs h), 3) h1) as [fo fh] eqn:EF. cbn [fst snd] in *.
      destruct (newBranchFrom_with _ d [a; b; v]) as [n'| |]; cbn [bind].
      * destruct Hr as (q & L' & R' & -> & Ho' & HL' & HR' & Hs'). rewrite (bindM_ok _ _ _ _ _ EF). cbn.
        split; auto. exists q, L', R'. do 5 (split; auto). intros [].
      * subst fo. rewrite (bindM_panic _ _ _ _ EF). split; auto.
      * subst fo. rewrite (bindM_fuel _ _ _ _ EF). split; auto.
  - (* twig *)
    assert (Hlt := nth_error_Some_lt _ _ _ Hp). assert (Hlr := nth_error_Some_lt _ _ _ Hr).
    rewrite (bindM_ok _ _ _ _ _ (elemsOf_ok _ _ _ _ _ Hr Hl)).
    rewrite (replaceFirst_index _ _ l v). unfold indexOf. destruct (findIndex _ l) as [i|] eqn:Ei.
    + unfold setSlot at 1. cbn [fst snd]. erewrite (bindM_ok _ _ h).
      2:{ erewrite (bindM_ok _ _ h) by (apply loadArr_ok; eauto). reflexivity. }
      split; auto. exists p, [p], [r]. split; auto. split; [|assert (maxTreeDepth <= d /\ 3 <= length l) as [? ?] by (inversion Hs; auto); fin].
      econstructor; cbn.
      * rewrite set_nth_length. eauto.
      * apply nth_error_set_nth_eq; auto.
      * cbn. rewrite set_nth_length. auto.
      * cbn. rewrite set_nth_length, firstn_set_nth, Hl. auto.
    + rewrite (bindM_ok _ _ _ _ _ (loadArr_ok _ _ _ Hr)).
      assert (maxTreeDepth <= d /\ 3 <= length l) as [Hd H3] by (inversion Hs; auto).
      rewrite (proj2 (Nat.leb_le _ _) Hd), Bool.orb_true_r.
      assert (Hlen : length l <= length (a_slots a)).
      { rewrite <- Hl at 1. rewrite firstn_length. lia. }
      unfold append. destruct (Nat.ltb_spec (length l) (a_cap a)) as [Hc|Hc].
      * erewrite (bindM_ok _ _ h).
        2:{ erewrite (bindM_ok _ _ h) by (apply loadArr_ok; eauto).
            rewrite (proj2 (Nat.ltb_lt _ _) Hc). reflexivity. }
        assert (Hn : (length l <? a_used a) = false) by (apply Nat.ltb_ge; lia).
        rewrite Hn. cbn [fst snd countOver storeArr bindM store ret h_objs h_arrs h_over].
        split; [cbn; lia|]. exists p, [p], [r]. split; auto. split; [|fin].
        econstructor; cbn.
        -- rewrite app_length. cbn. rewrite Nat.add_1_r. apply nth_error_set_nth_eq; auto.
        -- apply nth_error_set_nth_eq; auto.
        -- cbn. rewrite app_length. cbn. lia.
        -- cbn [a_slots]. rewrite app_length. cbn [length]. rewrite Hl, Nat.add_1_r.
           rewrite firstn_app, firstn_all2 by lia. replace (S (length l) - length l) with 1 by lia. auto.
      * erewrite (bindM_ok _ _ h).
        2:{ erewrite (bindM_ok _ _ h) by (apply loadArr_ok; eauto).
            rewrite (proj2 (Nat.ltb_ge _ _) Hc). reflexivity. }
        cbn [fst snd bindM store ret h_objs h_arrs h_over].
        split; [cbn; lia|]. exists p, [p], [length (h_arrs h)]. split; auto.
        split; [|fin].
        econstructor; cbn.
        -- rewrite app_length. cbn. rewrite Nat.add_1_r. apply nth_error_set_nth_eq; auto.
        -- apply nth_error_new.
        -- cbn. rewrite app_length. cbn. lia.
        -- cbn [a_slots]. rewrite Hl. apply firstn_all.
  - (* branch *)
    assert (Hlt := nth_error_Some_lt _ _ _ Hp). fold (digit d v). set (i := digit d v) in *.
    assert (Hi : i < length da).
    { rewrite (owns_length _ _ _ _ _ Hds). inversion Hs as [| | |? ? ? _ Hlen _]; subst. rewrite Hlen. apply digit_lt. }
    destruct (owns_child _ _ _ _ _ i Hds Hi) as (L1 & Lc & L2 & R1 & Rc & R2 & -> & -> & Hc & Hset).
    inversion HL as [|? ? HpL HL']; subst. destruct (owns_lt _ _ _ _ _ Hds) as [HltL HltR].
    destruct (NoDup_split _ _ _ HL') as (NLc & NL1 & NL2). destruct (NoDup_split _ _ _ HR) as (NRc & NR1 & NR2).
    destruct (childP da i) as [c|]; inversion Hc as [|c0 nc Lc0 Rc0 Hown E2 E3]; subst.
    + assert (Hsc : shape lim (S d) nc) by (inversion Hs; subst; eauto).
      specialize (IH args c nc v (S d) h Lc Rc Hown NLc NRc Hsc). rewrite newHasher_S in IH.
      destruct IH as [Hov Hres].
      assert (Hsafe := safe_addH grow (inO h Lc) (inA h Rc) k (c_eq args) (c_f args) c v (S d) (h_next (newHasher v d))).
      destruct (safe_roomy _ _ _ _ h (Hsafe (or_introl (own_root _ _ _ _ _ Hown))) (own_roomy _ _ _ _ _ Hown)) as (Hcl & (W1 & W2 & W3 & W4 & _) & Hpost).
      destruct (addH grow k _ _ c v (S d) _ h) as [fo fh] eqn:EF. cbn [fst snd] in *.
      destruct (add k args nc v (S d) (h_next (newHasher v d))) as [[n' m']| |]; cbn [bind].
      * destruct Hres as (q & Lq & Rq & -> & Ho' & HLq & HRq & Hs' & _). rewrite (bindM_ok _ _ _ _ _ EF).
        destruct (own_closed _ _ _ Hcl _ _ _ _ Ho' (Hpost _ eq_refl)) as [HinL HinR]. cbn [fst] in *.
        assert (Hpq : ~ In p Lq).
        { intros Hin. apply HinL in Hin as [Hin|Hin]; [|lia]. apply HpL. apply in_or_app; right. apply in_or_app; auto. }
        assert (HoutL : forall x, In x (L1 ++ L2) -> ~ inO h Lc x).
        { intros x Hx [Hin|Hin]; apply in_app_or in Hx as [Hx|Hx].
          - eapply NL1; eauto. - eapply NL2; eauto.
          - assert (x < length (h_objs h)) by (apply HltL; rewrite !in_app_iff; tauto). lia.
          - assert (x < length (h_objs h)) by (apply HltL; rewrite !in_app_iff; tauto). lia. }
        assert (HoutR : forall x, In x (R1 ++ R2) -> ~ inA h Rc x).
        { intros x Hx [Hin|Hin]; apply in_app_or in Hx as [Hx|Hx].
          - eapply NR1; eauto. - eapply NR2; eauto.
          - assert (x < length (h_arrs h)) by (apply HltR; rewrite !in_app_iff; tauto). lia.
          - assert (x < length (h_arrs h)) by (apply HltR; rewrite !in_app_iff; tauto). lia. }
        cbn [bindM store ret fst snd setNonNilChildP]. split; [cbn; auto|].
        exists p, (p :: L1 ++ Lq ++ L2), (R1 ++ Rq ++ R2). split; auto. split.
        { unfold newBranch, setNonNilChild. cbn [fst snd]. econstructor; [cbn; apply nth_error_set_nth_eq; lia|].
          apply Hset.
          - constructor. eapply own_agree; eauto. cbn. intros x Hx. apply nth_error_set_nth_ne. intros ->. auto.
          - intros x Hx. cbn. rewrite nth_error_set_nth_ne; [apply W3; auto|].
            intros ->. apply HpL. apply in_app_or in Hx. rewrite !in_app_iff. tauto.
          - intros x Hx. cbn. apply W4; auto. }
        split.
        { apply (NoDup_swap (length (h_objs h)) (p :: L1) Lc Lq L2); auto.
          intros x [<-|Hx]; auto. apply HltL. apply in_app_or in Hx. rewrite !in_app_iff. tauto. }
        split.
        { apply (NoDup_swap (length (h_arrs h)) R1 Rc Rq R2); auto.
          intros x Hx. apply HltR. apply in_app_or in Hx. rewrite !in_app_iff. tauto. }
        split; [|split; cbn; auto]. eapply shape_set; [exact Hs|]. intros c' [= <-]. auto.
      * subst fo. rewrite (bindM_panic _ _ _ _ EF). split; auto.
      * subst fo. rewrite (bindM_fuel _ _ _ _ EF). split; auto.
    + cbn [bindM alloc store ret fst snd setNonNilChildP h_objs h_arrs h_over]. split; auto.
      set (q := length (h_objs h)).
      exists p, (p :: L1 ++ [q] ++ L2), (R1 ++ [] ++ R2). split; auto. split.
      { unfold newBranch, setNonNilChild. cbn [fst snd].
        econstructor; [cbn; apply nth_error_set_nth_eq; rewrite app_length; cbn; lia|].
        apply Hset.
        - constructor. constructor. cbn. rewrite nth_error_set_nth_ne by (unfold q; lia). apply nth_error_new.
        - intros x Hx. cbn. rewrite nth_error_set_nth_ne by (intros <-; apply HpL; apply in_app_or in Hx; rewrite !in_app_iff; tauto).
          apply nth_error_snoc. assert (x < length (h_objs h)); [|lia]. apply HltL. apply in_app_or in Hx. rewrite !in_app_iff. tauto.
        - auto. }
      split.
      { apply (NoDup_swap (length (h_objs h)) (p :: L1) [] [q] L2); auto.
        - repeat constructor; auto.
        - intros x [<-|Hx]; auto.
        - intros x [<-|[]]. right. auto. }
      split; auto. split; [|split; cbn; auto]. eapply shape_set; [exact Hs|]. intros c' [= <-]. constructor.
Qed.

End Own.
