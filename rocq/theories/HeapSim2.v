(** * HeapSim2: the operations on sets agree with the pure model as long as no claimed slot is overwritten. *)
From Verif Require Import Base Bits Env EnvFacts Node NodeWf NodeAdd NodeRemove HeapModel HeapFrame HeapOwn HeapRep HeapSim.
Local Open Scope nat_scope.

Section Sim.
Context {E : Env} {T : Type} {K : Key T} (grow : nat -> nat -> nat).
Notation obj := (obj (T := T)).
Notation heap := (heap (T := T)).
Notation array := (array (T := T)).
Notation M := (M (T := T)).
Notation node := (node T).
Local Opaque maxTreeDepth fanout fb.

(** ** Monotonicity of the overwrite counter *)

Notation mono := (mono (T := T)).

Lemma mono_append sl v : mono (append grow sl v).
Proof. eapply mono_safe. apply safe_append. exact Logic.I. Qed.
Lemma mono_addH fuel eq f p v d h : mono (addH grow fuel eq f p v d h).
Proof. eapply mono_safe. apply safe_addH. exact Logic.I. Qed.
Lemma mono_newBranchFrom fuel d sl : mono (newBranchFromH grow fuel d sl).
Proof. eapply mono_safe. apply safe_newBranchFrom. intros; exact Logic.I. Qed.
Lemma mono_newCanonical fuel d sl : mono (newCanonicalH grow fuel d sl).
Proof. eapply mono_safe. apply safe_newCanonical. exact Logic.I. Qed.
Lemma mono_canonicalTwig fuel d p sl : mono (canonicalTwigH grow fuel d p sl).
Proof. eapply mono_safe. apply safe_canonicalTwig; exact Logic.I. Qed.
Lemma mono_canonicalBranch fuel p : mono (canonicalBranchH grow fuel p).
Proof. eapply mono_safe. apply safe_canonicalBranch. exact Logic.I. Qed.
Lemma mono_cloneSlice sl : mono (cloneSlice sl).
Proof. eapply mono_safe. apply safe_cloneSlice. Qed.
Lemma mono_withH fuel eq f p v d h : mono (withH grow fuel eq f p v d h).
Proof. eapply mono_safe. apply safe_withH. exact Logic.I. Qed.
Lemma mono_withoutH fuel p v d h : mono (withoutH grow fuel p v d h).
Proof. eapply mono_safe. apply safe_withoutH. exact Logic.I. Qed.
Lemma mono_has_at fuel p e d : mono (has_atH fuel p e d).
Proof. eapply mono_safe. apply safe_has_at. Qed.
Lemma mono_combineH fuel args p p2 d : mono (combineH grow fuel args p p2 d).
Proof. eapply mono_safe. apply safe_combineH; exact Logic.I. Qed.
Lemma mono_differenceH fuel g p p2 d : mono (differenceH grow fuel g p p2 d).
Proof. eapply mono_safe. apply safe_differenceH; exact Logic.I. Qed.
Lemma mono_intersectionH fuel g p p2 d : mono (intersectionH grow fuel g p p2 d).
Proof. eapply mono_safe. apply safe_intersectionH; exact Logic.I. Qed.
Lemma mono_whereH fuel g pred p d : mono (whereH grow fuel g pred p d).
Proof. eapply mono_safe. apply safe_whereH; exact Logic.I. Qed.
Lemma mono_dropped fuel args d l rest : mono (combineTwigH_dropped grow fuel args d l rest).
Proof. eapply mono_safe. apply safe_combineTwig_dropped. Qed.
Lemma mono_filterGet fuel keep l p d sl m : mono (filterGetH grow fuel keep l p d sl m).
Proof. eapply mono_safe. apply safe_filterGet. exact Logic.I. Qed.
Lemma mono_filterPred pred l sl m : mono (filterPredH grow pred l sl m).
Proof. eapply mono_safe. apply safe_filterPred. exact Logic.I. Qed.
Lemma mono_scan fuel args d nd sl c m : mono (combineTwigH_scan grow fuel args d sl c nd m).
Proof. eapply mono_safe. apply safe_combineTwig_scan. exact Logic.I. Qed.

Ltac mono1 := first
  [ apply mono_ret | apply mono_fail | apply mono_alloc | apply mono_load | apply mono_elemsOf | apply mono_newSlice
  | apply mono_setSlot | apply mono_append | apply mono_addH | apply mono_newBranchFrom | apply mono_newCanonical
  | apply mono_canonicalTwig | apply mono_canonicalBranch | apply mono_cloneSlice | apply mono_withH | apply mono_withoutH
  | apply mono_has_at | apply mono_combineH | apply mono_differenceH | apply mono_intersectionH | apply mono_whereH
  | apply mono_dropped | apply mono_filterGet | apply mono_filterPred | apply mono_scan
  | apply mono_bind
  | match goal with
    | |- mono (newBranchH _) => apply mono_alloc
    | |- mono (newTwigH _) => apply mono_alloc
    | |- mono (match ?x with _ => _ end) => destruct x
    | |- forall _, _ => intro
    end ].
Ltac mt := repeat mono1.

Lemma mono_parallel_loop (f : nat -> M (option nat * Z)) : (forall i, mono (f i)) ->
  forall order m data, mono (parallelH_loop f order m data).
Proof.
  intros Hf order. induction order as [|i order IH]; intros m data; cbn [parallelH_loop]; [apply mono_ret|].
  apply mono_bind; auto. intros [r m']. apply IH.
Qed.
Lemma mono_parallel g d mask (f : nat -> M (option nat * Z)) : (forall i, mono (f i)) -> mono (parallelH g d mask f).
Proof. intros Hf. apply mono_parallel_loop; auto. Qed.

(** ** Results *)

(** A new node. *)
Definition Rnew (d : nat) (h0 : heap) (a : nat * Z) (a' : node * Z) (h : heap) : Prop :=
  snd a = snd a' /\ rep h (fst a) (fst a') /\ shape true d (fst a') /\ length (h_objs h0) <= fst a.
Definition Rnode (d : nat) (a : nat * Z) (a' : node * Z) (h : heap) : Prop :=
  snd a = snd a' /\ rep h (fst a) (fst a') /\ shape true d (fst a').
(** A node or nil. *)
Definition Ropt (d : nat) (a : option nat * Z) (a' : option node * Z) (h : heap) : Prop :=
  snd a = snd a' /\ repo h (fst a) (fst a') /\ shapeo d (fst a').

Lemma Rnew_node d h0 a a' h : Rnew d h0 a a' h -> Rnode d a a' h.
Proof. intros (H1 & H2 & H3 & _). split; auto. Qed.

Lemma shapeo_None d : shapeo (T := T) d None.
Proof. intros n [=]. Qed.
Lemma shapeo_Some d (n : node) : shape true d n -> shapeo d (Some n).
Proof. intros H m [= <-]. auto. Qed.
Local Hint Resolve shapeo_None shapeo_Some : core.

(** ** newBranchFrom, Canonical *)

Lemma sim_newBranchFrom k d h r a data :
  nth_error (h_arrs h) r = Some a -> a_used a = length data -> firstn (length data) (a_slots a) = data -> 3 <= length data ->
  sim h (newBranchFromH grow k d (r, length data)) (newBranchFrom k d data)
    (fun q n h1 => rep h1 q n /\ shape true d n /\ length (h_objs h) <= q).
Proof.
  intros Ha Hu Hd H3 _.
  destruct (newBranchFrom_own_with true d (addFastH grow k) (addFast k) r data a h) as [Hov Hr]; auto.
  { intros p n v h0 L R Ho HL HR Hs Hb. rewrite (add_addFast NonParallel).
    apply (add_own grow true k (mkCombineArgs NonParallel veq (fun _ b => b)) p n v d h0 L R); auto. }
  fold (newBranchFromH grow k d (r, length data)) in *. fold (newBranchFrom k d data) in Hr.
  assert (Hk : kept h (snd (newBranchFromH grow k d (r, length data) h)) /\
    (forall q, fst (newBranchFromH grow k d (r, length data) h) = Ok q -> length (h_objs h) <= q)).
  { destruct (Nat.lt_ge_cases d maxTreeDepth) as [Hm|Hm].
    - assert (Hsafe : forall P Q, safe P Q (newBranchFromH grow k d (r, length data)) P).
      { intros P Q. apply safe_newBranchFrom. intros; lia. }
      split.
      + apply kept_add. apply (safe_addonly _ (fun _ => True)). intros P Q. eapply safe_weaken; [apply Hsafe|auto].
      + destruct (safe_roomy _ _ _ _ h (Hsafe (fun p => length (h_objs h) <= p) (fun r => length (h_arrs h) <= r))) as (_ & _ & Hp); auto.
        split; [|auto]. intros p o Hp Ho. apply nth_error_Some_lt in Ho. lia.
    - unfold newBranchFromH, newBranchFromH_with. rewrite (proj2 (Nat.leb_le _ _) Hm). split; [apply kept_alloc|].
      intros q [= <-]. auto. }
  destruct Hk as [Hk Hf]. split; auto.
  destruct (newBranchFrom k d data) as [n'| |]; cbn [agrees]; auto.
  destruct Hr as (q & L' & R' & E1 & Ho & _ & _ & Hs). exists q. split; auto. split; [eapply own_rep; eauto|]. auto.
Qed.

(** [return newBranchFrom(depth, a, b, ...), m]. *)
Lemma sim_sliceBranch k d h data (m : Z) : 3 <= length data ->
  sim h (sl <~ newSlice data ;; q <~ newBranchFromH grow k d sl ;; ret (q, m)) (n' <- newBranchFrom k d data ;; Ok (n', m)) (Rnew d h).
Proof.
  intros H3. apply sim_newSlice. intros h1 K1 Ha Ho.
  eapply sim_bind; [eapply sim_newBranchFrom; eauto; cbn; apply firstn_all|mt|mt|].
  intros q n h2 K2 (Hr & Hs & Hq). apply sim_ret. split; auto. split; auto. split; auto. rewrite <- Ho. auto.
Qed.

Lemma sim_canonicalTwig k d d' h p r l : nth_error (h_objs h) p = Some (OTwig r (length l)) -> holds h r l ->
  (length l <= 2 \/ d' = d /\ maxTreeDepth <= d) ->
  sim h (canonicalTwigH grow k d p (r, length l)) (canonicalTwig k d l)
    (fun o o' h1 => repo h1 o o' /\ shapeo d' o' /\ forall q, o = Some q -> q = p \/ length (h_objs h) <= q).
Proof.
  intros Hp Hl Hd. unfold canonicalTwigH. eapply sim_read; [apply elemsOf_holds; auto|]; cbv beta iota zeta.
  unfold canonicalTwig. destruct l as [|a [|b [|c l]]].
  - apply sim_ret. split; [constructor|]. split; auto. intros q [=].
  - apply sim_alloc. intros h1 K1 H1 _. apply sim_ret. split; [constructor; constructor; auto|].
    split; [apply shapeo_Some; constructor|]. intros q [= <-]. auto.
  - apply sim_alloc. intros h1 K1 H1 _. apply sim_ret. split; [constructor; constructor; auto|].
    split; [apply shapeo_Some; constructor|]. intros q [= <-]. auto.
  - destruct Hd as [Hd|[-> Hd]]; [cbn in Hd; lia|].
    rewrite (proj2 (Nat.leb_le 64 (d * fb)) (deep_bits d Hd)), Bool.orb_true_r.
    apply sim_ret. split; [constructor; econstructor; eauto|]. split; [apply shapeo_Some; constructor; auto; cbn; lia|].
    intros q [= <-]. auto.
Qed.

Lemma sim_newCanonical k d d' h r l : holds h r l -> (length l <= 2 \/ d' = d /\ maxTreeDepth <= d) ->
  sim h (newCanonicalH grow k d (r, length l)) (canonicalTwig k d l)
    (fun o o' h1 => repo h1 o o' /\ shapeo d' o' /\ forall q, o = Some q -> length (h_objs h) <= q).
Proof.
  intros Hl Hd. unfold newCanonicalH. apply sim_alloc. intros h1 K1 H1 _. cbn [fst snd] in *.
  eapply sim_weaken; [eapply sim_canonicalTwig; eauto; eapply holds_kept; eauto|].
  intros o o' h2 K2 (A & B & C). split; auto. split; auto. intros q Hq. apply kept_objs in K1.
  destruct (C q Hq) as [->|Hc]; lia.
Qed.

Lemma sim_canonicalBranch k d h q m ds : rep h q (Branch m ds) -> shape true d (Branch m ds) ->
  sim h (canonicalBranchH grow k q) (canonical k d (Branch m ds))
    (fun o o' h1 => repo h1 o o' /\ shapeo d o' /\ forall p, o = Some p -> p = q \/ length (h_objs h) <= p).
Proof.
  intros Hr Hs. unfold canonicalBranchH. eapply sim_read; [eapply walk_rep; eauto|]. cbn [canonical].
  destruct (appendTo maxLeafLen (Branch m ds) []) as [data|] eqn:Ed.
  - rewrite appendTo_spec in Ed by (cbn; lia). destruct (Nat.ltb_spec maxLeafLen (length (@nil T) + length (elems (Branch m ds)))) as [H|H]; [discriminate|].
    assert (Hle : length ([] ++ elems (Branch m ds)) <= 2) by exact H. injection Ed as <-.
    apply sim_newSlice. intros h1 K1 Ha Ho.
    eapply sim_weaken; [apply (sim_newCanonical k 0 d); [apply holds_new; exact Ha|left; exact Hle]|].
    intros o o' h2 K2 (A & B & C). split; auto. split; auto. intros p Hp. right. rewrite <- Ho. auto.
  - apply sim_ret. split; [constructor; auto|]. split; auto. intros p [= <-]. auto.
Qed.

(** ** Append *)

Lemma sim_append h r (l : list T) v : holds h r l ->
  sim h (append grow (r, length l) v) (Ok (l ++ [v])) (fun sl (l' : list T) h1 => snd sl = length l' /\ holds h1 (fst sl) l').
Proof.
  intros (a & Ha & Hu1 & Hu2 & Hl). assert (Hr := nth_error_Some_lt _ _ _ Ha).
  unfold append, sim. rewrite (bindM_ok _ _ _ _ _ (loadArr_ok _ _ _ Ha)).
  assert (Hfl : length (firstn (length l) (a_slots a)) = length l) by (rewrite Hl; auto).
  destruct (Nat.ltb_spec (length l) (a_cap a)) as [Hc|Hc]; cbn [fst snd bindM countOver storeArr allocArr ret h_objs h_arrs h_over].
  - intros Hov. destruct (Nat.ltb_spec (length l) (a_used a)) as [Hu|Hu]; [lia|]. assert (Hu3 : a_used a = length l) by lia.
    rewrite Hl. split.
    + split; [exists []; rewrite app_nil_r; auto|]. cbn [h_arrs]. intros r' a' Hr' Hu'.
      destruct (Nat.eq_dec r r') as [<-|Hn].
      * assert (a' = a) by congruence. subst a'. eexists. split; [apply nth_error_set_nth_eq; auto|]. cbn [a_used a_slots].
        split; [lia|]. split.
        { rewrite app_length. cbn [length]. rewrite skipn_length. lia. }
        rewrite Hu3, Hl. rewrite firstn_app, firstn_all, Nat.sub_diag. cbn. rewrite app_nil_r. auto.
      * exists a'. rewrite nth_error_set_nth_ne by auto. auto.
    + eexists. split; [reflexivity|]. cbn [fst snd]. split; [rewrite app_length; cbn; lia|].
      eexists. split; [cbn; apply nth_error_set_nth_eq; auto|]. cbn [a_used a_slots]. rewrite !app_length. cbn [length].
      split; [lia|]. split; [lia|]. rewrite firstn_app, firstn_all2 by lia. replace (length l + 1 - length l) with 1 by lia. auto.
  - intros _. split; [apply kept_newSlice|]. eexists. split; [reflexivity|]. cbn [fst snd]. split; [rewrite app_length; cbn; lia|].
    eexists. split; [cbn; apply nth_error_new|]. cbn [a_used a_slots]. rewrite Hl, app_length. cbn [length].
    split; [lia|]. split; [lia|]. replace (length l + 1) with (length (l ++ [v])) by (rewrite app_length; cbn; lia). apply firstn_all.
Qed.

(** A copy of a twig with one element changed (twig.go:284-288). *)
Lemma sim_cloneSet {B B'} h r (l : list T) i x (k : nat -> M B) (res : res B') Rel : holds h r l ->
  (forall h1, kept h h1 -> nth_error (h_objs h1) (length (h_objs h)) = Some (OTwig (length (h_arrs h)) (length l)) ->
     holds h1 (length (h_arrs h)) (set_nth l i x) -> sim h1 (k (length (h_objs h))) res Rel) ->
  sim h (sl <~ cloneSlice (r, length l) ;; q <~ newTwigH sl ;; _ <~ setSlot sl i x ;; k q) res Rel.
Proof.
  intros Hl Hk. unfold sim. unfold cloneSlice.
  set (a1 := mkArray (set_nth l i x) (length l) (length l)).
  set (h1 := mkHeap (h_objs h ++ [OTwig (length (h_arrs h)) (length l)]) (h_arrs h ++ [a1]) (h_over h)
    (h_log h ++ [WSlot (length (h_arrs h)) i])).
  match goal with |- context [?X h] => assert (HX : X h = k (length (h_objs h)) h1) end.
  { erewrite (bindM_ok _ _ h).
    2:{ rewrite (bindM_ok _ _ _ _ _ (elemsOf_holds _ _ _ Hl)). reflexivity. }
    erewrite (bindM_ok _ _ _) by reflexivity. cbn [fst snd h_objs h_arrs h_over].
    unfold setSlot. cbn [fst snd]. erewrite (bindM_ok _ _ _).
    2:{ erewrite (bindM_ok _ _ _) by (apply loadArr_ok; cbn; apply nth_error_new). reflexivity. }
    f_equal. unfold h1. cbn. f_equal. clear. induction (h_arrs h); cbn; auto. f_equal. auto. }
  rewrite HX. assert (K1 : kept h h1).
  { apply kept_prefix; cbn; [eexists; eauto|eexists; eauto]. }
  intros Hov. destruct (Hk h1) as [K2 A2]; auto.
  - cbn. apply nth_error_new.
  - exists a1. split; [cbn; apply nth_error_new|]. cbn [a_used a_slots a1]. rewrite !set_nth_length. split; auto. split; auto.
    rewrite <- (set_nth_length l i x) at 1. apply firstn_all.
  - split; auto. eapply kept_trans; eauto.
Qed.

(** ** With *)

Lemma branch_child (h : heap) d m da ds i : reps h da ds -> shape true d (Branch m ds) ->
  (childP da i = None /\ child ds i = None) \/
  (exists x nx, childP da i = Some x /\ child ds i = Some nx /\ rep h x nx /\ shape true (S d) nx).
Proof.
  intros Hr Hs. inversion Hs as [| | |d0 m0 ds0 _ _ Hch]; subst. specialize (Hch i).
  destruct (reps_child _ _ _ i Hr) as [|x nx Hx]; [left; auto|right]. exists x, nx. auto.
Qed.

Lemma sim_newBranch {B B'} h m d ds (k : nat -> M B) (r : res B') Rel : reps h d ds ->
  (forall h1, kept h h1 -> rep h1 (length (h_objs h)) (Branch m ds) -> sim h1 (k (length (h_objs h))) r Rel) ->
  sim h (bindM (newBranchH (m, d)) k) r Rel.
Proof.
  intros Hd Hk. apply sim_alloc. intros h1 K1 H1 _. apply Hk; auto. econstructor; [exact H1|]. eapply reps_kept; eauto.
Qed.

Lemma sim_with k : forall args h p n v d hs, rep h p n -> shape true d n ->
  sim h (withH grow k (c_eq args) (c_f args) p v d hs) (with_ k args n v d hs) (Rnew d h).
Proof.
  induction k as [|k IH]; intros args h p n v d hs Hr Hs; [apply sim_fuel|]. cbn [withH with_].
  inversion Hr as [p0 a Hp|p0 a b Hp|p0 r l Hp Hl|p0 m da ds Hp Hds]; subst; (eapply sim_read; [apply load_ok; eassumption|]); cbv beta iota zeta.
  - destruct (c_eq args a v); apply sim_alloc; intros h1 K1 H1 _; apply sim_ret; (split; [auto|]; split; [constructor; auto|]; split; [constructor|auto]).
  - destruct (c_eq args a v); [|destruct (c_eq args b v)].
    + apply sim_alloc; intros h1 K1 H1 _; apply sim_ret; (split; [auto|]; split; [constructor; auto|]; split; [constructor|auto]).
    + apply sim_alloc; intros h1 K1 H1 _; apply sim_ret; (split; [auto|]; split; [constructor; auto|]; split; [constructor|auto]).
    + apply sim_sliceBranch. cbn. lia.
  - eapply sim_read; [apply elemsOf_holds; auto|]; cbv beta iota zeta.
    assert (maxTreeDepth <= d /\ 3 <= length l) as [Hd H3] by (inversion Hs; auto).
    rewrite (replaceFirst_index _ _ l v). unfold indexOf. destruct (findIndex _ l) as [i|].
    + apply sim_cloneSet; auto. intros h1 K1 H1 Hh. apply sim_ret. split; auto. split; [|split; auto].
      * eapply rep_twig; [rewrite set_nth_length; eauto|]. auto.
      * cbn. constructor; auto. rewrite set_nth_length. auto.
    + change (o <- canonicalTwig k d (l ++ [v]);; match o with Some n' => Ok (n', 0%Z) | None => Panic end)
        with (bind (Ok (l ++ [v])) (fun l' => o <- canonicalTwig k d l';; match o with Some n' => Ok (n', 0%Z) | None => Panic end)).
      eapply sim_bind; [apply sim_append; auto|mt|mt|]. intros [r' len'] l' h1 K1 [E1 H1]. cbn [fst snd] in *. subst len'.
      eapply sim_bind; [apply (sim_newCanonical k d d); auto|mt|mt|].
      intros o o' h2 K2 (A & B & C). destruct A as [|q n' A]; [apply sim_panic|]. apply sim_ret.
      apply kept_objs in K1. specialize (C q eq_refl). split; auto. split; auto. split; auto. cbn. lia.
  - destruct (branch_child _ _ _ _ _ (h_hash hs) Hds Hs) as [[Ex En]|(x & nx & Ex & En & Hx & Hsx)]; rewrite Ex, En.
    + apply sim_alloc. intros h1 K1 H1 _. unfold setChildP. cbn [fst snd].
      eapply sim_newBranch; [eapply reps_set; [eapply reps_kept; eauto|constructor; constructor; exact H1]|].
      intros h2 K2 H2. apply sim_ret. apply kept_objs in K1. split; auto. split; auto. split; cbn; auto.
      eapply shape_set; [exact Hs|]. intros c [= <-]. constructor.
    + eapply sim_bind; [apply IH; eauto|mt|mt|]. intros [x2 m2] [n2 m2'] h1 K1 (E1 & H1 & S1 & F1). cbn [fst snd] in *. subst m2'.
      assert (x < length (h_objs h)) by (eapply rep_lt; eauto).
      rewrite (proj2 (Nat.eqb_neq x2 x)) by lia. unfold setChildP. cbn [fst snd].
      eapply sim_newBranch; [eapply reps_set; [eapply reps_kept; eauto|constructor; exact H1]|].
      intros h2 K2 H2. apply sim_ret. apply kept_objs in K1. split; auto. split; auto. split; cbn; auto.
      eapply shape_set; [exact Hs|]. intros c [= <-]. auto.
Qed.

(** ** Without *)

(** The same node with no match, or another one. *)
Definition Rsame (d : nat) (p : nat) (n : node) (h0 : heap) (a : option nat * Z) (a' : option node * Z) (h : heap) : Prop :=
  Ropt d a a' h /\ ((snd a = 0%Z /\ fst a = Some p /\ fst a' = Some n) \/ (snd a <> 0%Z /\ forall q, fst a = Some q -> length (h_objs h0) <= q)).

Lemma Rsame_same d p n h0 h : rep h p n -> shape true d n -> Rsame d p n h0 (Some p, 0%Z) (Some n, 0%Z) h.
Proof. intros H Hs. split; [split; [auto|]; split; [constructor; auto|]; apply shapeo_Some; auto|]. left. auto. Qed.

(** The copy of a twig with its last element moved over another (twig.go:308-315). *)
Lemma sim_cloneRemove {B B'} h r (l : list T) i v (k : nat -> slice -> M B) (rs : res B') Rel : holds h r l -> i < length l ->
  (forall h1, kept h h1 -> nth_error (h_objs h1) (length (h_objs h)) = Some (OTwig (length (h_arrs h)) (length (swapRemove l i v))) ->
     holds h1 (length (h_arrs h)) (swapRemove l i v) ->
     sim h1 (k (length (h_objs h)) (length (h_arrs h), length (swapRemove l i v))) rs Rel) ->
  sim h (sl <~ cloneSlice (r, length l - 1) ;; q <~ newTwigH sl ;;
         _ <~ (if i =? snd sl then ret tt else setSlot sl i (nth (snd sl) l v)) ;; k q sl) rs Rel.
Proof.
  intros Hl Hi Hk. unfold sim. unfold cloneSlice.
  assert (HL : length (swapRemove l i v) = length l - 1) by (apply swapRemove_length; intros ->; cbn in Hi; lia).
  set (l0 := firstn (length l - 1) l) in *.
  assert (Hl0 : length l0 = length l - 1) by (unfold l0; rewrite firstn_length; lia).
  set (a1 := mkArray (swapRemove l i v) (length l - 1) (length l - 1)).
  set (h1 := mkHeap (h_objs h ++ [OTwig (length (h_arrs h)) (length l - 1)]) (h_arrs h ++ [a1]) (h_over h)
    (if i =? length l - 1 then h_log h else h_log h ++ [WSlot (length (h_arrs h)) i])).
  match goal with |- context [?X h] => assert (HX : X h = k (length (h_objs h)) (length (h_arrs h), length l - 1) h1) end.
  { assert (He : elemsOf (r, length l - 1) h = (Ok l0, h)).
    { destruct Hl as (a & H1 & H2 & H3 & H4). unfold elemsOf. cbn [fst snd]. rewrite (bindM_ok _ _ _ _ _ (loadArr_ok _ _ _ H1)).
      cbn. unfold l0. rewrite <- H4 at 3. rewrite firstn_firstn. replace (Nat.min (length l - 1) (length l)) with (length l - 1) by lia. auto. }
    erewrite (bindM_ok _ _ h).
    2:{ rewrite (bindM_ok _ _ _ _ _ He). reflexivity. }
    erewrite (bindM_ok _ _ _) by reflexivity. cbn [fst snd h_objs h_arrs h_over]. rewrite Hl0.
    unfold h1, a1, swapRemove. fold l0. destruct (i =? length l - 1).
    - erewrite (bindM_ok _ _ _) by reflexivity. auto.
    - unfold setSlot. cbn [fst snd]. erewrite (bindM_ok _ _ _).
      2:{ erewrite (bindM_ok _ _ _) by (apply loadArr_ok; cbn; apply nth_error_new). reflexivity. }
      f_equal. cbn. f_equal. clear. induction (h_arrs h); cbn; auto. f_equal. auto. }
  rewrite HX. assert (K1 : kept h h1).
  { apply kept_prefix; cbn; [eexists; eauto|eexists; eauto]. }
  intros Hov. destruct (Hk h1) as [K2 A2]; auto.
  - cbn. rewrite HL. apply nth_error_new.
  - exists a1. split; [cbn; apply nth_error_new|]. cbn [a_used a_slots a1]. rewrite !HL. split; auto. split; auto.
    rewrite <- HL. apply firstn_all.
  - rewrite HL. auto.
  - rewrite HL in *. split; auto. eapply kept_trans; eauto.
Qed.

Lemma sim_without k : forall h p n v d hs, rep h p n -> shape true d n ->
  sim h (withoutH grow k p v d hs) (without k n v d hs) (Rsame d p n h).
Proof.
  induction k as [|k IH]; intros h p n v d hs Hr Hs; [apply sim_fuel|]. cbn [withoutH without].
  inversion Hr as [p0 a Hp|p0 a b Hp|p0 r l Hp Hl|p0 m da ds Hp Hds]; subst; (eapply sim_read; [apply load_ok; eassumption|]); cbv beta iota zeta.
  - destruct (veq a v); apply sim_ret; [|apply Rsame_same; auto].
    split; [split; auto; split; [constructor|auto]|]. right. cbn. split; [lia|]. intros q [=].
  - destruct (veq a v); [|destruct (veq b v)]; [| |apply sim_ret; apply Rsame_same; auto];
      (apply sim_alloc; intros h1 K1 H1 _; apply sim_ret; split;
       [split; auto; split; [constructor; constructor; auto|apply shapeo_Some; constructor]|];
       right; cbn; split; [lia|]; intros q [= <-]; auto).
  - eapply sim_read; [apply elemsOf_holds; auto|]; cbv beta iota zeta.
    assert (maxTreeDepth <= d /\ 3 <= length l) as [Hd H3] by (inversion Hs; auto).
    unfold indexOf. destruct (findIndex _ l) as [i|] eqn:Ei.
    + apply (sim_cloneRemove h r l i v (fun q sl => o <~ canonicalTwigH grow k d q sl ;; ret (o, 1%Z))); auto.
      { eapply findIndex_lt; eauto. }
      intros h1 K1 H1 Hh. eapply sim_bind; [apply (sim_canonicalTwig k d d); eauto|mt|mt|].
      intros o o' h2 K2 (A & B & C). apply sim_ret. split; [split; auto|]. right. cbn. split; [lia|]. intros q Hq.
      apply kept_objs in K1. destruct (C q Hq) as [->|Hc]; lia.
    + apply sim_ret. apply Rsame_same; auto.
  - destruct (branch_child _ _ _ _ _ (h_hash hs) Hds Hs) as [[Ex En]|(x & nx & Ex & En & Hx & Hsx)]; rewrite Ex, En.
    + apply sim_ret. apply Rsame_same; auto.
    + eapply sim_bind; [apply IH; eauto|mt|mt|].
      intros [x2 m2] [n2 m2'] h1 K1 ([E1 [H1 S1]] & Hc). cbn [fst snd] in *. subst m2'.
      assert (Hxl : x < length (h_objs h)) by (eapply rep_lt; eauto).
      destruct Hc as [(-> & -> & ->)|(Hm & Hf)].
      * cbn [ptr_eqb]. rewrite Nat.eqb_refl. cbn. apply sim_ret. apply Rsame_same; auto. eapply rep_kept; eauto.
      * assert (Hpe : ptr_eqb x2 (Some x) = false).
        { destruct x2 as [x2|]; cbn; auto. apply Nat.eqb_neq. specialize (Hf x2 eq_refl). lia. }
        rewrite Hpe, (proj2 (Z.eqb_neq m2 0) Hm).
        destruct (setChildP_rep (N.lor m (newMasker (h_hash hs))) da ds (h_hash hs) x2 n2) as [Q1 Q2]; [destruct H1; auto|].
        rewrite Q1. unfold newBranch, withChild, updateMaskBit. cbn [fst snd]. rewrite Q2.
        eapply sim_newBranch; [eapply reps_set; [eapply reps_kept; eauto|exact H1]|].
        intros h2 K2 H2. eapply sim_bind; [apply sim_canonicalBranch; eauto|mt|mt|].
        { eapply shape_set; [exact Hs|]. auto. }
        intros o o' h3 K3 (A & B & C). apply sim_ret. split; [split; auto|]. right. cbn [fst snd]. split; auto. intros q Hq.
        apply kept_objs in K1, K2. destruct (C q Hq) as [->|Hc]; lia.
Qed.

(** ** Parallel *)

Lemma reps_set_shape d (ds : list (option node)) i (o : option node) : length ds = fanout -> (forall j c, child ds j = Some c -> shape true (S d) c) -> shapeo (S d) o ->
  length (set_nth ds i o) = fanout /\ (forall j c, child (set_nth ds i o) j = Some c -> shape true (S d) c).
Proof.
  intros H1 H2 H3. split; [rewrite set_nth_length; auto|]. intros j c. destruct (Nat.eq_dec i j) as [<-|Hn].
  - destruct (Nat.lt_ge_cases i (length ds)) as [Hl|Hl].
    + rewrite child_set_eq by auto. auto.
    + rewrite child_overflow by (rewrite set_nth_length; auto). discriminate.
  - rewrite child_set_ne by auto. eauto.
Qed.

Definition Rpar (d : nat) (a : list (option nat) * Z) (a' : bool * Z * packer T) (h : heap) : Prop :=
  snd a = snd (fst a') /\ reps h (fst a) (snd (snd a')) /\ length (snd (snd a')) = fanout /\
  forall i c, child (snd (snd a')) i = Some c -> shape true (S d) c.

Lemma sim_parallel d g dep mask (F : nat -> M (option nat * Z)) (G : nat -> res (option node * Z))
    (f : nat -> packer T -> res (bool * Z * packer T)) h :
  slot_worker G f (par_order g dep mask) -> (forall i, mono (F i)) ->
  (forall i h1, kept h h1 -> sim h1 (F i) (G i) (Ropt (S d))) ->
  sim h (parallelH g dep mask F) (parallel g dep mask f emptyPacker) (Rpar d).
Proof.
  intros Hw Hm HF. unfold parallelH, parallel.
  assert (Hgen : forall order acc data s h1, kept h h1 -> slot_worker G f order -> reps h1 data (snd s) -> length (snd s) = fanout ->
    (forall i c, child (snd s) i = Some c -> shape true (S d) c) ->
    sim h1 (parallelH_loop F order acc data) (par_loop f order acc s) (Rpar d)).
  { clear Hw. induction order as [|i order IH]; intros acc data s h1 K1 Hw Hr Hlen Hsh; cbn [parallelH_loop par_loop].
    - apply sim_ret. split; auto.
    - destruct (Hw i s (or_introl eq_refl)) as (fm & Efi). rewrite Efi.
      assert (Eb : forall (r : res (option node * Z)) B (kk : bool * Z * packer T -> res B) (k1 : option node * Z -> bool * Z * packer T),
        bind (bind r (fun rm => Ok (k1 rm))) kk = bind r (fun rm => kk (k1 rm))) by (intros [?| |]; auto).
      rewrite Eb. eapply sim_bind; [apply HF; auto|apply Hm| |].
      + intros [r m]. assert (Hgm := mono_parallel_loop F Hm). apply Hgm.
      + intros [r m] [r' m'] h2 K2 (E1 & H1 & S1). cbn [fst snd] in *. subst m'.
        apply IH; auto.
        * eapply kept_trans; eauto.
        * eapply slot_worker_cons; eauto.
        * cbn [snd]. apply reps_set; auto. eapply reps_kept; eauto.
        * cbn [snd]. eapply reps_set_shape; eauto.
        * cbn [snd]. eapply reps_set_shape; eauto. }
  apply Hgen; auto using kept_refl.
  - apply reps_empty.
  - apply emptyData_length.
  - intros i c Hc. change (child emptyData i = Some c) in Hc. rewrite child_emptyData in Hc. discriminate.
Qed.

Lemma par_branch_shape d m ds : d < maxTreeDepth -> length ds = fanout -> (forall i c, child ds i = Some c -> shape true (S d) c) ->
  shape true d (Branch (T := T) m ds).
Proof. intros. constructor; auto. Qed.

(** ** Combine *)

Lemma sim_alloc_new d h (o : obj) (n : node) (m : Z) : (forall h1 p, nth_error (h_objs h1) p = Some o -> rep h1 p n) -> shape true d n ->
  sim h (q <~ alloc o ;; ret (q, m)) (Ok (n, m)) (Rnew d h).
Proof. intros Hr Hs. apply sim_alloc. intros h1 K1 H1 _. apply sim_ret. split; auto. Qed.

Ltac newleaf := first [apply sim_sliceBranch; cbn; lia | apply sim_alloc_new; [intros; constructor; auto|constructor]].

Lemma sim_combineLeaf21 k args d l0 l1 nd h : sim h (combineLeaf21H grow k args d l0 l1 nd) (combineLeaf21 k args d l0 l1 nd) (Rnew d h).
Proof.
  unfold combineLeaf21H, combineLeaf21. destruct (c_eq args l0 nd); [|destruct (c_eq args l1 nd)]; newleaf.
Qed.

Lemma sim_combineLeaf1 args d a b h : sim h (combineLeaf1H args a b) (Ok (combineLeaf1 args a b)) (Rnew d h).
Proof. unfold combineLeaf1H, combineLeaf1. destruct (c_eq args a b); newleaf. Qed.

Lemma sim_combineLeaf2 k args d l0 l1 n0 n1 h :
  sim h (combineLeaf2H grow k args d l0 l1 n0 n1) (combineLeaf2 k args d l0 l1 n0 n1) (Rnew d h).
Proof.
  unfold combineLeaf2H, combineLeaf2, combineLeaf2H_step, combineLeaf2_step.
  destruct (c_eq args l0 n0), (c_eq args l1 n1), (c_eq args l0 n1), (c_eq args l1 n0); newleaf.
Qed.

Lemma sim_with2 k args d p n a b h : rep h p n -> shape true d n ->
  sim h (with2H grow k args p a b d)
    ('(n', m1) <- with_ k args n a d (newHasher a d) ;; '(n'', m2) <- with_ k args n' b d (newHasher b d) ;; Ok (n'', (m1 + m2)%Z))
    (Rnew d h).
Proof.
  intros Hr Hs. unfold with2H. eapply sim_bind; [apply sim_with; eauto|mt|mt|].
  intros [q m1] [n' m1'] h1 K1 (E1 & H1 & S1 & F1). cbn [fst snd] in *. subst m1'.
  eapply sim_bind; [apply sim_with; eauto|mt|mt|].
  intros [q2 m2] [n2 m2'] h2 K2 (E2 & H2 & S2 & F2). cbn [fst snd] in *. subst m2'. apply kept_objs in K1.
  apply sim_ret. split; auto. split; auto. split; auto. cbn. lia.
Qed.

(** The branch that is dropped (twig.go:131-139). *)
Lemma sim_dropped k args d l rest h : sim h (combineTwigH_dropped grow k args d l rest) (combineTwig_dropped k args d l rest) (fun m m' _ => m = m').
Proof.
  intros _. split.
  - apply kept_add. apply (safe_addonly _ (fun _ => True)). intros P Q. apply safe_combineTwig_dropped.
  - unfold combineTwigH_dropped, combineTwig_dropped.
    destruct (own_emptyBranch (T := T) h) as (h1 & E1 & Ho & _ & _). rewrite (bindM_ok _ _ _ _ _ E1).
    destruct (fold_own_count false d (fun b e => addH grow k (c_eq args) (c_f args) b e d (newHasher e d))
      (fun n e => add k args n e d (newHasher e d))
      (fun p n v h0 L R Ho HL HR Hs Hb => add_own grow false k args p n v d h0 L R Ho HL HR Hs)
      (l ++ rest) (length (h_objs h)) (newBranch emptyPacker) h1 [length (h_objs h)] [] 0%Z) as [_ Hr]; auto.
    { repeat constructor; auto. }
    { constructor. }
    { apply shape_empty. discriminate. }
    { cbn. auto. }
    unfold rmap.
    match goal with |- agrees _ (match ?X with _ => _ end) _ => destruct X as [[n' m']| |] end; cbn [agrees]; auto.
    destruct Hr as (L' & R' & Hr & _). eauto.
Qed.

(** The copy that is written to is relative to the heap [hb] before the whole operation. *)
Lemma kept_write hb (h : heap) r a w : kept hb h -> length (h_arrs hb) <= r ->
  kept hb (mkHeap (h_objs h) (set_nth (h_arrs h) r a) (h_over h) w).
Proof.
  intros [H1 H2] Hr. split; auto. intros r' a' Ha Hu. destruct (H2 r' a' Ha Hu) as (a2 & H3 & H4). exists a2. split; auto.
  cbn. rewrite nth_error_set_nth_ne; auto. apply nth_error_Some_lt in Ha. lia.
Qed.

Lemma setSlot_run (h : heap) r (l : list T) i x : holds h r l ->
  exists a', setSlot (r, length l) i x h = (Ok tt, mkHeap (h_objs h) (set_nth (h_arrs h) r a') (h_over h) (h_log h ++ [WSlot r i])) /\
    holds (mkHeap (h_objs h) (set_nth (h_arrs h) r a') (h_over h) (h_log h ++ [WSlot r i])) r (set_nth l i x).
Proof.
  intros (a & H1 & H2 & H3 & H4). unfold setSlot. cbn [fst snd]. rewrite (bindM_ok _ _ _ _ _ (loadArr_ok _ _ _ H1)).
  eexists. split; [reflexivity|]. eexists. split; [cbn; apply nth_error_set_nth_eq; eapply nth_error_Some_lt; eauto|].
  cbn [a_used a_slots]. rewrite !set_nth_length. split; auto. split; auto. rewrite firstn_set_nth, H4. auto.
Qed.

Lemma scan_clone (hb h : heap) r (l : list T) (cloned : bool) : kept hb h -> length (h_arrs hb) <= length (h_arrs h) -> holds h r l ->
  (cloned = true -> length (h_arrs hb) <= r) ->
  exists r' h1, (if cloned then ret (r, length l) else cloneSlice (r, length l)) h = (Ok (r', length l), h1) /\
    kept hb h1 /\ length (h_arrs hb) <= length (h_arrs h1) /\ h_over h1 = h_over h /\ holds h1 r' l /\ length (h_arrs hb) <= r'.
Proof.
  intros Hk Ha Hl Hc. destruct cloned.
  - exists r, h. split; [reflexivity|]. auto 6.
  - exists (length (h_arrs h)), (mkHeap (h_objs h) (h_arrs h ++ [mkArray l (length l) (length l)]) (h_over h) (h_log h)).
    split; [|split; [|split; [|split; [|split]]]].
    + unfold cloneSlice. rewrite (bindM_ok _ _ _ _ _ (elemsOf_holds _ _ _ Hl)). reflexivity.
    + eapply kept_trans; [exact Hk|apply kept_newSlice].
    + cbn. rewrite app_length. lia.
    + reflexivity.
    + apply holds_new. cbn. apply nth_error_new.
    + auto.
Qed.

Lemma dropped_arrs k args d l rest (h : heap) : length (h_arrs h) <= length (h_arrs (snd (combineTwigH_dropped grow k args d l rest h))).
Proof.
  assert (H : addonly h (snd (combineTwigH_dropped grow k args d l rest h))).
  { apply (safe_addonly _ (fun _ => True)). intros P Q. apply safe_combineTwig_dropped. }
  destruct H as (_ & [x ->] & _). rewrite app_length. lia.
Qed.

Lemma sim_scan k args d hb : forall ndata l r cloned m h, kept hb h -> length (h_arrs hb) <= length (h_arrs h) -> h_over h = h_over hb ->
  holds h r l -> (cloned = true -> length (h_arrs hb) <= r) -> 3 <= length l ->
  let o := combineTwigH_scan grow k args d (r, length l) cloned ndata m h in
  h_over (snd o) = h_over hb ->
  kept hb (snd o) /\ agrees (fst o) (combineTwig_scan k args d l ndata m) (fun a a' => snd (fst a) = length (fst a') /\ 3 <= length (fst a')).
Proof.
  induction ndata as [|e rest IH]; intros l r cloned m h Hk Ha Hov Hl Hc H3 o; unfold o; clear o; cbn [combineTwigH_scan combineTwig_scan].
  - intros _. cbn. split; auto. eexists. split; [reflexivity|]. auto.
  - rewrite (bindM_ok _ _ _ _ _ (elemsOf_holds _ _ _ Hl)), (replaceFirst_index _ _ l e). unfold indexOf.
    destruct (findIndex _ l) as [j|] eqn:Ej.
    + destruct (scan_clone hb h r l cloned) as (r' & h1 & E1 & K1 & A1 & O1 & L1 & F1); auto. rewrite (bindM_ok _ _ _ _ _ E1).
      destruct (setSlot_run h1 r' l j (c_f args (nth j l e) e) L1) as (a' & E2 & L2). rewrite (bindM_ok _ _ _ _ _ E2).
      rewrite <- (set_nth_length l j (c_f args (nth j l e) e)). apply IH; auto.
      * apply kept_write; auto.
      * cbn. rewrite set_nth_length. auto.
      * cbn. lia.
      * rewrite set_nth_length. auto.
    + cbn [snd]. rewrite (proj2 (Nat.ltb_ge (length l) maxLeafLen)) by (unfold maxLeafLen; lia).
      intros Hend. pose proof (sim_dropped k args d l (e :: rest) h) as Hs. unfold sim in Hs.
      pose proof (mono_dropped k args d l (e :: rest) h) as Hm. pose proof (dropped_arrs k args d l (e :: rest) h) as Hda.
      unfold bindM in *. destruct (combineTwigH_dropped grow k args d l (e :: rest) h) as [o h1]. cbn [fst snd] in *.
      assert (Hov1 : h_over h1 = h_over h).
      { destruct o as [md| |]; cbn in Hend; try lia.
        pose proof (mono_scan k args d rest (r, length l) cloned (m + md)%Z h1). lia. }
      destruct (Hs Hov1) as [K1 A1]. destruct (combineTwig_dropped k args d l (e :: rest)) as [md| |]; cbn [agrees bind] in *.
      * destruct A1 as (x & -> & ->). apply IH; auto; try lia; [eapply kept_trans; eauto|eapply holds_kept; eauto].
      * subst o. cbn. split; auto. eapply kept_trans; eauto.
      * subst o. cbn. split; auto. eapply kept_trans; eauto.
Qed.

Lemma sim_combineTwig k args d l l2 r r2 h : holds h r l -> holds h r2 l2 -> 3 <= length l ->
  sim h (combineTwigH grow k args d (r, length l) (r2, length l2)) (combineTwig k args d l l2) (Rnode d).
Proof.
  intros Hl Hl2 H3. unfold combineTwigH, combineTwig. eapply sim_read; [apply elemsOf_holds; auto|]. cbv beta.
  eapply sim_bind with (Rel := fun a a' _ => snd (fst a) = length (fst a') /\ 3 <= length (fst a')).
  - intros Hov. apply sim_scan; auto using kept_refl. discriminate.
  - mt.
  - mt.
  - intros [sl m] [l' m'] h1 K1 [E1 H1]. cbn [fst snd] in *. rewrite E1.
    rewrite (proj2 (Nat.ltb_lt maxLeafLen (length l'))) by (unfold maxLeafLen; lia). apply sim_panic.
Qed.

(** A worker of Gauge.Parallel that fills a slot. *)
Ltac worker := intros i s _; cbv beta;
  repeat match goal with |- context [child ?d i] => destruct (child d i) end;
  first [ exists (fun m => m); cbn [bind]; repeat match goal with |- context [bind ?r _] => destruct r as [[? ?]| |]; cbn [bind fst snd] end; reflexivity
        | exists (fun m => N.lor m (newMasker i)); cbn [bind]; reflexivity ].

Lemma Ropt_child d h m da ds i (z : Z) : reps h da ds -> shape true d (Branch m ds) -> Ropt (S d) (childP da i, z) (child ds i, z) h.
Proof.
  intros Hr Hs. split; auto. split; [apply reps_child; auto|]. inversion Hs; subst. intros c Hc. eauto.
Qed.

Lemma sim_combine k : forall args h p p2 n n2 d, rep h p n -> rep h p2 n2 -> shape true d n -> shape true d n2 ->
  sim h (combineH grow k args p p2 d) (combine k args n n2 d) (Rnode d).
Proof.
  induction k as [|k IH]; intros args h p p2 n n2 d Hr Hr2 Hs Hs2; [apply sim_fuel|]. cbn [combineH combine].
  assert (Hw : forall (m : M (nat * Z)) r, sim h m r (Rnew d h) -> sim h m r (Rnode d)).
  { intros m r H. eapply sim_weaken; [exact H|]. intros a a' h1 _. apply Rnew_node. }
  inversion Hr as [p0 a Hp|p0 a b Hp|p0 r l Hp Hl|p0 m da ds Hp Hds]; subst;
  inversion Hr2 as [p0 a2 Hp2|p0 a2 b2 Hp2|p0 r2 l2 Hp2 Hl2|p0 m2 da2 ds2 Hp2 Hds2]; subst;
    (eapply sim_read; [apply load_ok; eassumption|]); (eapply sim_read; [apply load_ok; eassumption|]); cbv beta iota zeta;
    try apply sim_panic; try (apply Hw; first [apply sim_combineLeaf1 | apply sim_combineLeaf21 | apply sim_combineLeaf2
      | apply sim_with2; auto | apply sim_with; auto]; fail).
  - apply sim_combineTwig; auto. inversion Hs; auto.
  - assert (Hd : d < maxTreeDepth) by (inversion Hs; auto).
    eapply sim_bind.
    + apply (sim_parallel d _ _ _ _ (fun i => match child ds i, child ds2 i with
        | None, y => Ok (y, 0%Z) | x, None => Ok (x, 0%Z)
        | Some x, Some y => '(r, m) <- combine k (c_sub i args) x y (S d) ;; Ok (Some r, m) end)).
      * worker.
      * mt.
      * intros i h1 K1. pose proof (Ropt_child d h1 m da ds i 0%Z (reps_kept _ _ _ _ K1 Hds) Hs) as Hx.
        pose proof (Ropt_child d h1 m2 da2 ds2 i 0%Z (reps_kept _ _ _ _ K1 Hds2) Hs2) as Hy.
        destruct (branch_child _ _ _ _ _ i Hds Hs) as [[Ex En]|(x & nx & Ex & En & Hx1 & Hsx)];
        destruct (branch_child _ _ _ _ _ i Hds2 Hs2) as [[Ey Em]|(y & ny & Ey & Em & Hy1 & Hsy)];
          rewrite Ex, En in *; rewrite Ey, Em in *; try (apply sim_ret; auto; fail).
        eapply sim_bind; [apply IH; eauto using rep_kept|mt|mt|].
        intros [q mq] [nq mq'] h2 K2 (E2 & H2 & S2). cbn [fst snd] in *. subst mq'. apply sim_ret.
        split; auto. split; [constructor; auto|]. apply shapeo_Some; auto.
    + apply mono_parallel. mt.
    + mt.
    + intros [data ms] [[bb ms'] s'] h1 K1 (E1 & H1 & L1 & S1). cbn [fst snd] in *. subst ms'.
      rewrite (updateMaskP_rep _ _ _ H1). eapply sim_newBranch; [exact H1|]. intros h2 K2 H2. apply sim_ret.
      split; auto. split; auto. apply par_branch_shape; auto.
Qed.

(** ** Difference and Intersection *)

Lemma sim_map {A A' B'} h (m : M A) (r : res A') (k' : A' -> res B') Rel (Rel' : A -> B' -> heap -> Prop) :
  sim h m r Rel -> (forall a a' h1, Rel a a' h1 -> exists b', k' a' = Ok b' /\ Rel' a b' h1) -> sim h m (bind r k') Rel'.
Proof.
  intros H Hw Hov. destruct (H Hov) as [K1 A1]. split; auto. destruct r; cbn in *; auto.
  destruct A1 as (x & Hx & HR). destruct (Hw _ _ _ HR) as (b' & -> & HR'). exists x. split; auto.
Qed.

Lemma sim_bindl {A A' B B'} h (m : M A) (k : A -> M B) (x : A') (r : res B') Rel Rel' :
  sim h m (Ok x) Rel -> mono m -> (forall a, mono (k a)) ->
  (forall a h1, kept h h1 -> Rel a x h1 -> sim h1 (k a) r Rel') -> sim h (bindM m k) r Rel'.
Proof.
  intros H1 H2 H3 H4. change r with (bind (Ok tt) (fun _ => r)).
  eapply (sim_bind h m k (Ok tt) (fun _ => r) (fun a _ h1 => Rel a x h1)); auto.
Qed.

Definition Rslice (l0 : list T) (m0 : Z) (a : slice * Z) (a' : list T * Z) (h : heap) : Prop :=
  snd (fst a) = length (l0 ++ fst a') /\ holds h (fst (fst a)) (l0 ++ fst a') /\ snd a = (m0 + snd a')%Z.

Lemma sim_filterGet k keep p n d : forall l r l0 m0 h, rep h p n -> holds h r l0 ->
  sim h (filterGetH grow k keep l p d (r, length l0) m0) (filterGet k keep l n d) (Rslice l0 m0).
Proof.
  induction l as [|e l IH]; intros r l0 m0 h Hr Hl; cbn [filterGetH filterGet].
  - apply sim_ret. unfold Rslice. cbn [fst snd]. rewrite app_nil_r. split; auto. split; auto. lia.
  - eapply sim_reads; [apply has_atH_rep; eauto|]. intros b _. destruct (Bool.eqb b keep).
    + eapply sim_bindl; [apply sim_append; exact Hl|mt|mt|]. intros [r' len'] h1 K1 [E1 H1]. cbn [fst snd] in *. subst len'.
      eapply sim_map; [apply IH; eauto using rep_kept|]. intros a [r0 m] h2 (A1 & A2 & A3). eexists. split; [reflexivity|].
      cbn [fst snd] in *. rewrite <- app_assoc in *. split; auto. split; auto. cbn [snd]. destruct b; lia.
    + eapply sim_bindl; [apply (sim_ret h (r, length l0) (r, length l0) (fun a a' _ => a = a')); reflexivity|mt|mt|].
      intros sl h1 K1 ->.
      eapply sim_map; [apply IH; [eapply rep_kept; eauto|eapply holds_kept; eauto]|]. intros a [r0 m] h2 (A1 & A2 & A3). eexists. split; [reflexivity|].
      cbn [fst snd] in *. split; auto. split; auto. cbn [snd]. destruct b; lia.
Qed.

Lemma sim_filterPred pred : forall l r l0 m0 h, holds h r l0 ->
  sim h (filterPredH grow pred l (r, length l0) m0) (Ok (filter pred l, Z.of_nat (length (filter pred l)))) (Rslice l0 m0).
Proof.
  induction l as [|e l IH]; intros r l0 m0 h Hl; cbn [filterPredH filter].
  - apply sim_ret. unfold Rslice. cbn [fst snd]. rewrite app_nil_r. split; auto. split; auto. cbn. lia.
  - destruct (pred e).
    + eapply sim_bindl; [apply sim_append; exact Hl|mt|mt|]. intros [r' len'] h1 K1 [E1 H1]. cbn [fst snd] in *. subst len'.
      eapply (sim_map h1 _ (Ok (filter pred l, Z.of_nat (length (filter pred l)))) (fun _ => Ok (e :: filter pred l, Z.of_nat (length (e :: filter pred l))))
        (fun a a' h2 => Rslice (l0 ++ [e]) (m0 + 1) a a' h2 /\ a' = (filter pred l, Z.of_nat (length (filter pred l))))).
      { intros Hov. destruct (IH r' (l0 ++ [e]) (m0 + 1)%Z h1 H1 Hov) as [K2 (x & X1 & X2)]. split; auto. exists x. auto. }
      intros a a' h2 [(A1 & A2 & A3) ->]. eexists. split; [reflexivity|]. cbn [fst snd] in *. rewrite <- app_assoc in *.
      split; auto. split; auto. cbn [snd length]. lia.
    + apply IH; auto.
Qed.

Lemma sim_canonicalSlice k d h (l : list T) r (m : Z) : holds h r l -> maxTreeDepth <= d ->
  sim h (o <~ newCanonicalH grow k d (r, length l) ;; ret (o, m)) (o <- canonicalTwig k d l ;; Ok (o, m)) (Ropt d).
Proof.
  intros Hl Hd. eapply sim_bind; [apply (sim_newCanonical k d d); auto|mt|mt|].
  intros o o' h2 K2 (A & B & _). apply sim_ret. split; auto.
Qed.

Lemma holds_nil (h : heap) r a : nth_error (h_arrs h) r = Some a -> a_used a <= length (a_slots a) -> holds h r [].
Proof. intros H1 H2. exists a. split; auto. split; [cbn; lia|]. split; auto. Qed.

(** The filtered copy of a twig. *)
Lemma sim_filterTwig k keep p n d l h : rep h p n -> maxTreeDepth <= d ->
  sim h (sl0 <~ newSlice [] ;; '(sl, m) <~ filterGetH grow k keep l p d sl0 0 ;; o <~ newCanonicalH grow k d sl ;; ret (o, m))
    ('(l', m) <- filterGet k keep l n d ;; o <- canonicalTwig k d l' ;; Ok (o, m)) (Ropt d).
Proof.
  intros Hr Hd. apply sim_newSlice. intros h1 K1 Ha Ho.
  eapply sim_bind; [apply (sim_filterGet k keep p n d l _ [] 0%Z); [eapply rep_kept; eauto|eapply holds_nil; eauto; cbn; lia]|mt|mt|].
  intros [[r' len] m] [l' m'] h2 K2 (A1 & A2 & A3). cbn [fst snd app] in *. subst len. replace m with m' by lia. apply sim_canonicalSlice; auto.
Qed.

Lemma Ropt_same d h p n (z : Z) : rep h p n -> shape true d n -> Ropt d (Some p, z) (Some n, z) h.
Proof. intros H Hs. split; auto. split; [constructor; auto|]. apply shapeo_Some; auto. Qed.
Lemma Ropt_none d h (z : Z) : Ropt d (None, z) (None, z) h.
Proof. split; auto. split; [constructor|]. auto. Qed.
Lemma sim_leaf1 d h a (z : Z) : sim h (q <~ alloc (OLeaf1 a) ;; ret (Some q, z)) (Ok (Some (Leaf1 a), z)) (Ropt d).
Proof. apply sim_alloc. intros h1 K1 H1 _. apply sim_ret. apply Ropt_same; constructor; auto. Qed.
Local Hint Resolve Ropt_same Ropt_none : core.

(** The end of Difference, Intersection and Where on branches. *)
Lemma sim_parBranch k d h data ds (ms : Z) : d < maxTreeDepth -> reps h data ds -> length ds = fanout ->
  (forall i c, child ds i = Some c -> shape true (S d) c) ->
  sim h (q <~ newBranchH (updateMaskP data, data) ;; o <~ canonicalBranchH grow k q ;; ret (o, ms))
    (o <- canonical k d (Branch (updateMask ds) ds) ;; Ok (o, ms)) (Ropt d).
Proof.
  intros Hd Hr Hl Hs. rewrite (updateMaskP_rep _ _ _ Hr). eapply sim_newBranch; [exact Hr|]. intros h2 K2 H2.
  eapply sim_bind; [apply sim_canonicalBranch; eauto; apply par_branch_shape; auto|mt|mt|].
  intros o o' h3 K3 (A & B & _). apply sim_ret. split; auto.
Qed.

Lemma sim_difference k : forall g h p p2 n n2 d, rep h p n -> rep h p2 n2 -> shape true d n -> shape true d n2 ->
  sim h (differenceH grow k g p p2 d) (difference k g n n2 d) (Ropt d).
Proof.
  induction k as [|k IH]; intros g h p p2 n n2 d Hr Hr2 Hs Hs2; [apply sim_fuel|]. cbn [differenceH difference].
  assert (Hw : forall q nq (m : M (option nat * Z)) r, sim h m r (Rsame d q nq h) -> sim h m r (Ropt d)).
  { intros q nq m r H. eapply sim_weaken; [exact H|]. intros a a' h1 _ [H1 _]. auto. }
  inversion Hr as [p0 a Hp|p0 a b Hp|p0 r l Hp Hl|p0 m da ds Hp Hds]; subst;
    (eapply sim_read; [apply load_ok; eassumption|]); cbv beta iota zeta.
  - eapply sim_reads; [apply has_atH_rep; eauto|]. intros [|] _; apply sim_ret; auto.
  - eapply sim_reads; [apply has_atH_rep; eauto|]. intros x _.
    eapply sim_reads; [apply has_atH_rep; eauto|]. intros y _.
    destruct x, y; first [apply sim_leaf1 | apply sim_ret; auto].
  - eapply sim_read; [apply elemsOf_holds; auto|]; cbv beta iota zeta. apply sim_filterTwig; auto. inversion Hs; auto.
  - assert (Hd : d < maxTreeDepth) by (inversion Hs; auto).
    inversion Hr2 as [p0 a2 Hp2|p0 a2 b2 Hp2|p0 r2 l2 Hp2 Hl2|p0 m2 da2 ds2 Hp2 Hds2]; subst;
      (eapply sim_read; [apply load_ok; eassumption|]); cbv beta iota zeta.
    + eapply Hw. apply sim_without; auto.
    + eapply sim_bind; [apply sim_without; eauto|mt|mt|].
      intros [o1 m1] [o1' m1'] h1 K1 [(E1 & H1 & S1) _]. cbn [fst snd] in *. subst m1'. destruct H1 as [|q nq H1]; [apply sim_panic|].
      eapply sim_bind; [apply sim_without; eauto|mt|mt|].
      intros [o2 mm] [o2' mm'] h2 K2 [(E2 & H2 & S2) _]. cbn [fst snd] in *. subst mm'. apply sim_ret. split; auto.
    + apply sim_panic.
    + eapply sim_bind.
      * apply (sim_parallel d _ _ _ _ (fun i => match child ds i, child ds2 i with
          | x, None => Ok (x, 0%Z) | None, Some _ => Panic
          | Some x, Some y => difference k (g_sub i g) x y (S d) end)).
        -- worker.
        -- mt.
        -- intros i h1 K1. pose proof (Ropt_child d h1 m da ds i 0%Z (reps_kept _ _ _ _ K1 Hds) Hs) as Hx.
           destruct (branch_child _ _ _ _ _ i Hds Hs) as [[Ex En]|(x & nx & Ex & En & Hx1 & Hsx)];
           destruct (branch_child _ _ _ _ _ i Hds2 Hs2) as [[Ey Em]|(y & ny & Ey & Em & Hy1 & Hsy)];
             rewrite Ex, En in *; rewrite Ey, Em; try (apply sim_ret; auto; fail); [apply sim_panic|].
           apply IH; eauto using rep_kept.
      * apply mono_parallel. mt.
      * mt.
      * intros [data ms] [[bb ms'] s'] h1 K1 (E1 & H1 & L1 & S1). cbn [fst snd] in *. subst ms'. apply sim_parBranch; auto.
Qed.

Lemma sim_intersectLeaf1 k d h p a p2 n2 : rep h p (Leaf1 a) -> rep h p2 n2 ->
  sim h (intersectLeaf1H k p a p2 d) (intersectLeaf1 k a n2 d) (Ropt d).
Proof.
  intros Hr Hr2. unfold intersectLeaf1H, intersectLeaf1. eapply sim_reads; [apply has_atH_rep; eauto|].
  intros [|] _; apply sim_ret; auto. apply Ropt_same; auto. constructor.
Qed.
Lemma sim_intersectLeaf2 k d h p a b p2 n2 : rep h p (Leaf2 a b) -> rep h p2 n2 ->
  sim h (intersectLeaf2H k p a b p2 d) (intersectLeaf2 k a b n2 d) (Ropt d).
Proof.
  intros Hr Hr2. unfold intersectLeaf2H, intersectLeaf2. eapply sim_reads; [apply has_atH_rep; eauto|]. intros x _.
  eapply sim_reads; [apply has_atH_rep; eauto|]. intros y _.
  destruct x, y; first [apply sim_leaf1 | apply sim_ret; auto]. apply Ropt_same; auto. constructor.
Qed.

Lemma sim_intersection k : forall g h p p2 n n2 d, rep h p n -> rep h p2 n2 -> shape true d n -> shape true d n2 ->
  sim h (intersectionH grow k g p p2 d) (intersection k g n n2 d) (Ropt d).
Proof.
  induction k as [|k IH]; intros g h p p2 n n2 d Hr Hr2 Hs Hs2; [apply sim_fuel|]. cbn [intersectionH intersection].
  inversion Hr as [p0 a Hp|p0 a b Hp|p0 r l Hp Hl|p0 m da ds Hp Hds]; subst;
    (eapply sim_read; [apply load_ok; eassumption|]); cbv beta iota zeta.
  - apply sim_intersectLeaf1; auto.
  - apply sim_intersectLeaf2; auto.
  - eapply sim_read; [apply elemsOf_holds; auto|]; cbv beta iota zeta. apply sim_filterTwig; auto. inversion Hs; auto.
  - assert (Hd : d < maxTreeDepth) by (inversion Hs; auto).
    inversion Hr2 as [p0 a2 Hp2|p0 a2 b2 Hp2|p0 r2 l2 Hp2 Hl2|p0 m2 da2 ds2 Hp2 Hds2]; subst;
      (eapply sim_read; [apply load_ok; eassumption|]); cbv beta iota zeta.
    + apply sim_intersectLeaf1; auto.
    + apply sim_intersectLeaf2; auto.
    + apply sim_panic.
    + eapply sim_bind.
      * apply (sim_parallel d _ _ _ _ (fun i => match child ds i, child ds2 i with
          | Some x, Some y => intersection k (g_sub i g) x y (S d) | _, _ => Panic end)).
        -- worker.
        -- mt.
        -- intros i h1 K1.
           destruct (branch_child _ _ _ _ _ i Hds Hs) as [[Ex En]|(x & nx & Ex & En & Hx1 & Hsx)];
           destruct (branch_child _ _ _ _ _ i Hds2 Hs2) as [[Ey Em]|(y & ny & Ey & Em & Hy1 & Hsy)];
             rewrite Ex, En, ?Ey, ?Em; try apply sim_panic.
           apply IH; eauto using rep_kept.
      * apply mono_parallel. mt.
      * mt.
      * intros [data ms] [[bb ms'] s'] h1 K1 (E1 & H1 & L1 & S1). cbn [fst snd] in *. subst ms'. apply sim_parBranch; auto.
Qed.

End Sim.

(** ** Where *)

Section Wf.
Context {E : Env} {T : Type} {K : Key T} {vok : T -> Prop} (grow : nat -> nat -> nat).
Notation heap := (heap (T := T)).
Notation M := (M (T := T)).
Notation node := (node T).
Local Opaque maxTreeDepth fanout fb.

Lemma wf_shape d n : wf vok d n -> shape true d n.
Proof.
  induction 1 as [d a Hd Ha|d a b Hd Ha Hb Hab|d l Hd Hl Hok Hdis|d mk data Hd Hlen Hm Hch IH Hp Hl]; constructor; auto; lia.
Qed.

Lemma ptrs_eqb_eq a b : ptrs_eqb a b = true -> a = b.
Proof.
  revert b; induction a as [|x a IH]; intros [|y b]; cbn; try discriminate; auto. intros H. apply andb_prop in H as [H1 H2].
  f_equal; auto. destruct x as [x|], y as [y|]; cbn in H1; try discriminate; auto. apply Nat.eqb_eq in H1. congruence.
Qed.

Lemma sim_where k : forall g pred h p n d, rep h p n -> wf vok d n ->
  sim h (whereH grow k g pred p d) (where_ k g pred n d) (Ropt d).
Proof.
  induction k as [|k IH]; intros g pred h p n d Hr Hwf; [apply sim_fuel|]. cbn [whereH where_]. assert (Hs := wf_shape _ _ Hwf).
  inversion Hr as [p0 a Hp|p0 a b Hp|p0 r l Hp Hl|p0 m da ds Hp Hds]; subst;
    (eapply sim_read; [apply load_ok; eassumption|]); cbv beta iota zeta.
  - destruct (pred a); apply sim_ret; auto using Ropt_same, Ropt_none.
  - destruct (pred a), (pred b); first [apply sim_leaf1 | apply sim_ret; auto using Ropt_same, Ropt_none].
  - eapply sim_read; [apply elemsOf_holds; auto|]; cbv beta iota zeta.
    apply sim_newSlice. intros h1 K1 Ha Ho.
    eapply sim_bindl; [apply (sim_filterPred grow pred l _ [] 0%Z); eapply holds_nil; eauto; cbn; lia|apply mono_filterPred| |].
    { intros [sl m]. apply mono_bind; [apply mono_newCanonical|]. intros; apply mono_ret. }
    intros [[r' len] m] h2 K2 (A1 & A2 & A3). cbn [fst snd app] in *. subst len m. rewrite Z.add_0_l.
    apply sim_canonicalSlice; auto. inversion Hs; auto.
  - inversion Hwf as [| | |d' m' data' Hd Hlen Hm Hch Hpl Hl]; subst d' m' data'.
    eapply sim_bind.
    + apply (sim_parallel d _ _ _ _ (fun i => match child ds i with
          | None => Panic | Some x => where_ k (g_sub i g) pred x (S d) end)).
      * intros i s _; cbv beta. destruct (child ds i); exists (fun m => m); cbn [bind]; auto.
        destruct (where_ _ _ _ _ _) as [[? ?]| |]; reflexivity.
      * intros i. destruct (childP da i); [apply mono_whereH|apply mono_fail].
      * intros i h1 K1.
        destruct (branch_child _ _ _ _ _ i Hds Hs) as [[Ex En]|(x & nx & Ex & En & Hx1 & Hsx)]; rewrite Ex, En; [apply sim_panic|].
        apply IH; eauto using rep_kept.
    + apply mono_parallel. intros i. destruct (childP da i); [apply mono_whereH|apply mono_fail].
    + intros [nodes ms]. destruct (_ && _)%bool; [apply mono_ret|]. apply mono_bind; [apply mono_alloc|]. intros q.
      apply mono_bind; [apply mono_canonicalBranch|]. intros; apply mono_ret.
    + intros [nodes ms] [[bb ms'] s'] h1 K1 (E1 & H1 & L1 & S1). cbn [fst snd] in *. subst ms'.
      destruct ((updateMaskP nodes =? m)%N && ptrs_eqb nodes da)%bool eqn:Eq.
      * apply andb_prop in Eq as [_ Eq]. apply ptrs_eqb_eq in Eq. subst nodes.
        assert (Hds1 : reps h1 da ds) by (eapply reps_kept; eauto).
        assert (Es : snd s' = ds) by (eapply (reps_fun h1); eauto). rewrite Es, <- Hm, (canonical_wf (vok := vok)) by auto.
        cbn [bind]. apply sim_ret. apply Ropt_same; auto. eapply rep_kept; eauto.
      * apply sim_parBranch; auto.
Qed.

End Wf.
