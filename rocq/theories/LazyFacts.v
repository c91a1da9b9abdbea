(** * LazyFacts: what the methods of the lazy package return, whatever the other goroutines do. *)
From Verif Require Import Base Bits Env EnvFacts Node NodeWf Iter Tree TreeFacts SetApi SetFacts BitFacts PowersetFacts Reach Lazy LazyLists.

Section LazyFacts.
Context {E : Env} {HE : EnvOk E} {T : Type} {K : Key T} {vok : T -> Prop} {KO : KeyOk K vok} {B : Boxes T}.
Notation lset := (lset T).
Notation liter := (liter T).
Notation prog := (prog T).
Notation sok := (sok vok).
Notation bok := (SetFacts.bok (vok := vok)).
Notation allok := (NodeWf.allok vok).
Notation predOk := (predOk (vok := vok)).
Notation mapOk := (mapOk (vok := vok)).
Notation disjoint := (disjoint (vok := vok)).
Notation injOn := (injOn (vok := vok)).
Notation cardIs := (cardIs (vok := vok)).
Notation boxLaw := (boxLaw (vok := vok)).
Notation matches := (matches (vok := vok)).
Notation mem_filter := (mem_filter (vok := vok)).
Notation mem_veq := (mem_veq (vok := vok)).

(** ** The set an expression stands for *)

(** The elements of the denoted set, as a list (possibly with repetitions). *)
Fixpoint dl (e : lset) : list T :=
  match e with
  | LEmpty => []
  | LFrozen s => sel s
  | LMemo _ src => dl src
  | LUnion a b => dl a ++ dl b
  | LInter a b => filter (mem (dl b)) (dl a)
  | LDiff a b => filter (fun x => negb (mem (dl b) x)) (dl a)
  | LWhere src p => filter p (dl src)
  | LMap src m => map m (dl src)
  | LPow src => pset (dl src)
  end.

(** Expressions whose [Has], respectively [Range], answers correctly. *)
Fixpoint hasOk (e : lset) : Prop :=
  match e with
  | LEmpty | LFrozen _ => True
  | LMemo _ src => hasOk src /\ rangeOk src
  | LUnion a b | LInter a b => hasOk a /\ hasOk b
  | LWhere src _ => hasOk src
  | LMap src _ => rangeOk src
  | LDiff _ _ | LPow _ => False
  end
with rangeOk (e : lset) : Prop :=
  match e with
  | LEmpty | LFrozen _ => True
  | LMemo _ src => rangeOk src
  | LUnion a b => rangeOk a /\ rangeOk b
  | LInter a b | LDiff a b => rangeOk a /\ hasOk b
  | LWhere src _ | LMap src _ | LPow src => rangeOk src
  end.

(** Sets whose [Range] gives no value twice. *)
Fixpoint nodupE (e : lset) : Prop :=
  match e with
  | LEmpty | LFrozen _ | LMemo _ _ => True
  | LInter a _ | LDiff a _ => nodupE a
  | LWhere src _ => nodupE src
  | LUnion a b => nodupE a /\ nodupE b /\ disjoint (dl a) (dl b)
  | LMap src m => nodupE src /\ injOn m (dl src)
  | LPow _ => True
  end.

(** Expressions whose counting methods answer correctly. *)
Fixpoint countOk (e : lset) : Prop :=
  match e with
  | LEmpty | LFrozen _ => True
  | LMemo _ src => countOk src /\ rangeOk src
  | LUnion a b => countOk a /\ countOk b /\ rangeOk a /\ rangeOk b /\ nodupE e
  | LPow src => countOk src /\ rangeOk src
  | _ => rangeOk e /\ nodupE e
  end.

(** ** What the goroutines know about the heap *)

(** For each memo pointer: the source expression, and whether the pointer has been moved to a frozen copy. *)
Definition ghost : Type := list (lset * bool).

(** Other goroutines may allocate new memoSets and store frozen copies. *)
Definition ext (g g' : ghost) : Prop :=
  length g <= length g' /\
  forall p src d, nth_error g p = Some (src, d) ->
    exists d', nth_error g' p = Some (src, d') /\ (d = true -> d' = true).

Lemma ext_refl g : ext g g.
Proof. split; auto. intros p src d H. exists d. auto. Qed.

Lemma ext_trans g1 g2 g3 : ext g1 g2 -> ext g2 g3 -> ext g1 g3.
Proof.
  intros [L1 H1] [L2 H2]. split; [lia|]. intros p src d H.
  apply H1 in H as (d1 & H & Hd1). apply H2 in H as (d2 & H & Hd2). eauto.
Qed.

Lemma ext_app g l : ext g (g ++ l).
Proof.
  split; [rewrite app_length; lia|]. intros p src d H. exists d. split; auto.
  rewrite nth_error_app1; auto. apply nth_error_Some. congruence.
Qed.

(** The pointer at [p] has been moved. *)
Definition mark (g : ghost) (p : nat) : ghost :=
  match nth_error g p with Some (src, _) => set_nth g p (src, true) | None => g end.

Definition done (g : ghost) (p : nat) : Prop := exists src, nth_error g p = Some (src, true).

Lemma mark_ext g p : ext g (mark g p).
Proof.
  unfold mark. destruct (nth_error g p) as [[src d]|] eqn:Hp; [|apply ext_refl].
  split; [rewrite set_nth_length; auto|]. intros q s' d' H.
  destruct (Nat.eq_dec p q) as [<-|Hne].
  - rewrite H in Hp. injection Hp as <- <-. exists true. split; auto. apply nth_error_set_nth_eq.
    apply nth_error_Some. congruence.
  - exists d'. rewrite nth_error_set_nth_ne; auto.
Qed.

Lemma mark_done g p src d : nth_error g p = Some (src, d) -> done (mark g p) p.
Proof.
  intros H. unfold mark, done. rewrite H. exists src. apply nth_error_set_nth_eq.
  apply nth_error_Some. congruence.
Qed.

Lemma done_ext g g' p : ext g g' -> done g p -> done g' p.
Proof. intros [_ H] (src & Hp). apply H in Hp as (d' & Hp & Hd). exists src. rewrite Hd in Hp; auto. Qed.

(** Expressions that [memo] wraps in a new memoSet. *)
Definition raw (e : lset) : Prop := match e with LEmpty | LFrozen _ | LMemo _ _ => False | _ => True end.

(** Expressions built by the package. *)
Fixpoint lok (g : ghost) (e : lset) : Prop :=
  match e with
  | LEmpty => True
  | LFrozen s => sok s
  | LMemo p src => (exists d, nth_error g p = Some (src, d)) /\ raw src /\ lok g src
  | LUnion a b | LInter a b | LDiff a b => lok g a /\ lok g b
  | LWhere src p => lok g src /\ predOk p
  | LMap src m => lok g src /\ mapOk m
  | LPow src => lok g src /\ nodupE src /\ countOk src /\ boxLaw (dl src) /\ exists n, cardIs (dl src) n /\ (1 <= n <= 62)%Z
  end.

Lemma lok_ext g g' e : ext g g' -> lok g e -> lok g' e.
Proof.
  intros Hx. induction e; simpl; try tauto.
  intros ((d & Hp) & Hr & Hl). split; auto. apply Hx in Hp as (d' & Hp & _). eauto.
Qed.

Lemma lok_allok g e : lok g e -> allok (dl e).
Proof.
  induction e; simpl; intros H; auto using (allok_nil (vok := vok)).
  - apply sok_allok; auto.
  - tauto.
  - apply allok_app. tauto.
  - apply allok_filter; tauto.
  - apply allok_filter; tauto.
  - apply allok_filter; tauto.
  - destruct H. apply allok_map; auto.
  - apply pset_allok; tauto.
Qed.

(** The state of a memo pointer: it has been moved iff it holds a frozen copy, which has the elements of the
    source. *)
Definition cellOk (src : lset) (d : bool) (o : option (set T)) : Prop :=
  d = isSome o /\
  forall f, o = Some f -> sok f /\ (rangeOk src -> forall x, vok x -> mem (sel f) x = mem (dl src) x).

(** ** Program logic

    [wp m Q g]: started in a situation described by [g], the program [m] ends without a panic and with a result
    satisfying [Q], whatever the other goroutines do between its atomic actions (as long as they too leave every
    cell in a state satisfying [cellOk]); all the stores of [m] itself satisfy [cellOk]; and [m] only memoises sets
    whose Range is right. *)
Fixpoint wp {A} (m : prog A) (Q : ghost -> A -> Prop) (g : ghost) : Prop :=
  match m with
  | Ret a => Q g a
  | PPanic => False
  | PFuel => False
  | Load p k =>
      exists src d, nth_error g p = Some (src, d) /\
        forall g' o, ext g g' -> nth_error g' p = Some (src, isSome o) -> cellOk src (isSome o) o -> wp (k o) Q g'
  | Store p f k =>
      exists src d, nth_error g p = Some (src, d) /\ cellOk src true (Some f) /\
        forall g', ext g g' -> wp k Q (mark g' p)
  | Alloc src k =>
      lok g src /\ raw src /\ rangeOk src /\
        forall g', ext g g' -> wp (k (length g')) Q (g' ++ [(src, false)])
  end.

Lemma wp_mono {A} (m : prog A) : forall (Q Q' : ghost -> A -> Prop) g,
  wp m Q g -> (forall g' a, ext g g' -> Q g' a -> Q' g' a) -> wp m Q' g.
Proof.
  induction m as [a| | |p k IH|p f k IH|src k IH]; intros Q Q' g; cbn [wp]; auto.
  - intros H HQ. apply HQ; auto using ext_refl.
  - intros (src & d & Hp & H) HQ. exists src, d. split; auto. intros g' o Hx Hp' Hc.
    apply (IH o Q); auto. intros g2 a Hx2. apply HQ. eapply ext_trans; eauto.
  - intros (src & d & Hp & Hc & H) HQ. exists src, d. split; auto. split; auto. intros g' Hx.
    apply (IH Q); auto. intros g2 a Hx2. apply HQ. eapply ext_trans; eauto. eapply ext_trans; [apply mark_ext|eauto].
  - intros (Hl & Hr & Hg & H) HQ. split; auto. split; auto. split; auto. intros g' Hx. apply (IH _ Q); auto. intros g2 a Hx2.
    apply HQ. eapply ext_trans; eauto. eapply ext_trans; [apply ext_app|eauto].
Qed.

Lemma wp_bind {A C} (m : prog A) (k : A -> prog C) : forall (Q : ghost -> C -> Prop) g,
  wp m (fun g' a => wp (k a) Q g') g -> wp (pbind m k) Q g.
Proof.
  induction m as [a| | |p j IH|p f j IH|src j IH]; intros Q g; cbn [wp pbind]; auto.
  - intros (src & d & Hp & H). exists src, d. split; auto.
  - intros (src & d & Hp & Hc & H). exists src, d. split; auto.
  - intros (Hl & Hr & Hg & H). split; auto.
Qed.

(** Running [m] and then [k]: [m] satisfies [P], and from there [k] satisfies [Q]. *)
Lemma wp_seq {A C} (m : prog A) (k : A -> prog C) (P : ghost -> A -> Prop) (Q : ghost -> C -> Prop) g :
  wp m P g -> (forall g' a, ext g g' -> P g' a -> wp (k a) Q g') -> wp (pbind m k) Q g.
Proof. intros H HQ. apply wp_bind. eapply wp_mono; eauto. Qed.

Lemma wp_lift {A} (r : res A) a (Q : ghost -> A -> Prop) g : r = Ok a -> Q g a -> wp (lift r) Q g.
Proof. intros -> H. exact H. Qed.

Lemma wp_lift_bind {A C} (r : res A) a (k : A -> prog C) (Q : ghost -> C -> Prop) g :
  r = Ok a -> wp (k a) Q g -> wp (pbind (lift r) k) Q g.
Proof. intros -> H. exact H. Qed.

Lemma wp_load {A} p src g (k : option (set T) -> prog A) Q :
  (exists d, nth_error g p = Some (src, d)) ->
  (forall g' o, ext g g' -> nth_error g' p = Some (src, isSome o) -> cellOk src (isSome o) o -> wp (k o) Q g') ->
  wp (Load p k) Q g.
Proof. intros (d & Hp) H. cbn [wp]. eauto. Qed.

(** ** Iterators *)

(** The values an iterator has yet to give, as a list (in no particular order, possibly with repetitions). *)
Fixpoint il (it : liter) : list T :=
  match it with
  | ItEmpty => []
  | ItFrozen i => remaining i
  | ItUnion i ob => il i ++ match ob with Some b => dl b | None => [] end
  | ItInter i b => filter (mem (dl b)) (il i)
  | ItDiff i b => filter (fun x => negb (mem (dl b) x)) (il i)
  | ItWhere i p => filter p (il i)
  | ItMap i m => map m (il i)
  | ItPow i fin mask es _ => laterList es (il i) (wrap 64 (mask + 1)) fin
  | ItCache i _ seen => filter (fun x => negb (mem (bel seen) x)) (il i)
  end.

(** Iterators that give no value twice. *)
Fixpoint ind (it : liter) : Prop :=
  match it with
  | ItEmpty | ItFrozen _ | ItCache _ _ _ => True
  | ItInter i _ | ItDiff i _ | ItWhere i _ => ind i
  | ItUnion i ob => ind i /\ match ob with Some b => nodupE b /\ disjoint (il i) (dl b) | None => True end
  | ItMap i m => ind i /\ injOn m (il i)
  | ItPow _ _ _ _ _ => True
  end.

Fixpoint itok (g : ghost) (it : liter) : Prop :=
  match it with
  | ItEmpty => True
  | ItFrozen i => iok (vok := vok) 0 i /\ allok (remaining i) /\ distinct (remaining i)
  | ItUnion i ob => itok g i /\ match ob with Some b => lok g b /\ rangeOk b | None => True end
  | ItInter i b | ItDiff i b => itok g i /\ lok g b /\ hasOk b
  | ItWhere i p => itok g i /\ predOk p
  | ItMap i m => itok g i /\ mapOk m
  | ItPow i fin mask es value =>
      let m := wrap 64 (mask + 1) in
      itok g i /\ ind i /\ allok es /\ distinct es /\ disjoint es (il i) /\ boxLaw (es ++ il i) /\
      (exists n, cardIs (il i) n /\ (Z.of_nat (length es) + n <= 62)%Z) /\
      fin = (2 ^ N.of_nat (length es))%N /\ (m <= fin)%N /\ SetReach vok value /\ matches es value (gray (N.pred m))
  | ItCache i p seen =>
      itok g i /\ bok seen /\ exists src d, nth_error g p = Some (src, d) /\
        (rangeOk src -> forall x, vok x -> mem (dl src) x = (mem (bel seen) x || mem (il i) x)%bool)
  end.

(** The pointer that will be moved at the end of the iteration. *)
Definition target (it : liter) : option nat := match it with ItCache _ p _ => Some p | _ => None end.

Lemma itok_ext g g' it : ext g g' -> itok g it -> itok g' it.
Proof.
  intros Hx. induction it as [|i|i IH ob|i IH b|i IH b|i IH p|i IH m|i IH fin mask es v|i IH p seen]; simpl; try tauto.
  - intros [Hi Hb]. split; auto. destruct ob; auto. destruct Hb. split; auto. eapply lok_ext; eauto.
  - intros (H1 & H2 & H3). split; auto. split; auto. eapply lok_ext; eauto.
  - intros (H1 & H2 & H3). split; auto. split; auto. eapply lok_ext; eauto.
  - intros (H1 & H2 & src & d & Hp & H3). split; auto. split; auto. apply Hx in Hp as (d' & Hp & _). eauto.
Qed.

Lemma bok_allok b : bok b -> allok (bel b).
Proof. apply (sok_allok (mkSet (sb_tree b))). Qed.

Lemma itok_allok g it : itok g it -> allok (il it).
Proof.
  induction it as [|i|i IH ob|i IH b|i IH b|i IH p|i IH m|i IH fin mask es v|i IH p seen]; simpl;
    auto using (allok_nil (vok := vok)).
  - tauto.
  - intros [Hi Hb]. apply allok_app. split; auto. destruct ob; [|apply allok_nil]. eapply lok_allok. apply Hb.
  - intros H. apply allok_filter. tauto.
  - intros H. apply allok_filter. tauto.
  - intros H. apply allok_filter. tauto.
  - intros [H1 H2]. apply allok_map; auto.
  - intros (H1 & _ & H2 & _ & _ & H3 & _ & -> & _). apply laterList_allok; auto.
  - intros H. apply allok_filter. tauto.
Qed.

Lemma bound_dl g e : lok g e -> length (dl e) <= bound e.
Proof.
  induction e; simpl; intros H; auto.
  - rewrite (s_count_ok (vok := vok)) by auto. lia.
  - tauto.
  - rewrite app_length. destruct H as [H1 H2]. specialize (IHe1 H1). specialize (IHe2 H2). lia.
  - etransitivity; [apply filter_length_le'|]; tauto.
  - etransitivity; [apply filter_length_le'|]; tauto.
  - etransitivity; [apply filter_length_le'|]; tauto.
  - rewrite map_length. tauto.
  - unfold pset. rewrite map_length, sublists_length. apply Nat.pow_le_mono_r; [lia|]. tauto.
Qed.

(** A frozen copy has no more elements than the iteration over the source gives. *)
Lemma frozen_bound g src f : lok g src -> rangeOk src -> sok f ->
  (forall x, vok x -> mem (sel f) x = mem (dl src) x) -> length (sel f) <= bound src.
Proof.
  intros Hl Hr Hf Hm. etransitivity; [|eapply bound_dl; eauto].
  apply (distinct_length_le (vok := vok)); auto using sok_distinct, sok_allok.
  - eapply lok_allok; eauto.
  - intros a Ha. assert (Hv : vok a) by (apply (sok_allok f Hf); auto).
    assert (Hmem : mem (dl src) a = true).
    { rewrite <- Hm by auto. apply mem_true. exists a. split; auto. apply veq_refl; auto. }
    apply mem_true in Hmem as (b & Hb & Hba). exists b. split; auto.
    apply veq_sym; auto. eapply (lok_allok); eauto.
Qed.

Lemma cost_pos (e : lset) : 1 <= cost e.
Proof. destruct e; simpl; lia. Qed.

Definition rangePost (e : lset) (g : ghost) (it : liter) : Prop :=
  itok g it /\ (forall x, vok x -> mem (il it) x = mem (dl e) x) /\ rem it <= bound e /\ icost it <= cost e /\
  (nodupE e -> ind it) /\ (forall p src, e = LMemo p src -> done g p \/ target it = Some p).

Lemma itok_frozen g f : sok f -> itok g (ItFrozen (s_range f)) /\ il (ItFrozen (s_range f)) = sel f.
Proof.
  intros Hf. destruct (range_iok (vok := vok) f Hf) as [Hi Hr]. simpl. rewrite Hr. split; auto.
  split; auto. split; [apply sok_allok|apply (sok_distinct (vok := vok))]; auto.
Qed.

Lemma rem_frozen f : sok f -> rem (ItFrozen (s_range f)) = length (sel f).
Proof. intros Hf. destruct (range_iok (vok := vok) f Hf) as [Hi Hr]. simpl. rewrite Hr. auto. Qed.

Lemma mem_filter_ext p l l' x : predOk p -> allok l -> allok l' -> vok x -> mem l x = mem l' x ->
  mem (filter p l) x = mem (filter p l') x.
Proof. intros. rewrite !mem_filter by auto. congruence. Qed.

Lemma mem_map_ext m l l' : mapOk m -> allok l -> allok l' ->
  (forall x, vok x -> mem l x = mem l' x) -> forall x, vok x -> mem (map m l) x = mem (map m l') x.
Proof.
  intros [Hm1 Hm2].
  assert (Hhalf : forall l l', allok l -> allok l' -> (forall x, vok x -> mem l x = mem l' x) ->
    forall x, vok x -> mem (map m l) x = true -> mem (map m l') x = true).
  { intros l1 l2 H1 H2 Hl x Hx H. apply mem_true in H as (e & He & Hv).
    apply in_map_iff in He as (y & <- & Hy).
    assert (Hy2 : mem l2 y = true).
    { rewrite <- Hl by (apply H1; auto). apply mem_true. exists y. split; auto. apply veq_refl. apply H1; auto. }
    apply mem_true in Hy2 as (z & Hz & Hzy). apply mem_true. exists (m z). split; [apply in_map; auto|].
    apply (veq_trans (m z) (m y) x); auto. }
  intros H1 H2 Hl x Hx. destruct (mem (map m l) x) eqn:E1, (mem (map m l') x) eqn:E2; auto.
  - apply (Hhalf l l') in E1; auto. congruence.
  - apply (Hhalf l' l) in E2; auto; try congruence. intros; symmetry; auto.
Qed.

Lemma range_wp e : forall g, lok g e -> rangeOk e -> wp (l_range e) (rangePost e) g.
Proof.
  induction e as [|s|p src IH|a IHa b IHb|a IHa b IHb|a IHa b IHb|src IH q|src IH m|src IH];
    intros g Hl Hr; cbn [l_range].
  - cbn [wp]. unfold rangePost. simpl. repeat split; auto; try lia. intros; discriminate.
  - cbn [wp]. unfold rangePost. destruct (itok_frozen g s Hl) as [H1 H2]. split; auto. rewrite H2. split; auto.
    rewrite rem_frozen by auto. simpl. rewrite (s_count_ok (vok := vok)) by auto. repeat split; auto; try lia.
    intros; discriminate.
  - destruct Hl as (Hp & Hw & Hl). simpl in Hr. apply wp_load with (src := src); auto.
    intros g1 o Hx1 Hp1 [_ Hc]. destruct o as [f|].
    + destruct (Hc f eq_refl) as [Hf Hm]. specialize (Hm Hr). cbn [wp]. unfold rangePost.
      destruct (itok_frozen g1 f Hf) as [H1 H2]. split; auto. rewrite H2. split; auto.
      rewrite rem_frozen by auto. repeat split; auto.
      * simpl. eapply frozen_bound; eauto.
      * simpl. lia.
      * intros p' src' [= <- <-]. left. exists src. auto.
    + assert (Hl1 : lok g1 src) by (eapply lok_ext; eauto).
      eapply wp_seq with (P := fun g' it => itok g' it /\ (forall x, vok x -> mem (il it) x = mem (dl src) x) /\
          rem it <= bound src /\ icost it <= cost src).
      * apply wp_load with (src := src); eauto. intros g2 o Hx2 Hp2 [_ Hc2]. destruct o as [f|].
        -- destruct (Hc2 f eq_refl) as [Hf Hm]. specialize (Hm Hr). cbn [wp].
           destruct (itok_frozen g2 f Hf) as [H1 H2]. split; auto. rewrite H2. split; auto.
           rewrite rem_frozen by auto. split; [eapply frozen_bound; eauto|]. simpl. apply cost_pos.
        -- eapply wp_mono; [apply IH; auto; eapply lok_ext; eauto|]. intros g' it _ (H1 & H2 & H3 & H4 & _). auto.
      * intros g2 it Hx2 (H1 & H2 & H3 & H4). cbn [wp]. unfold rangePost.
        assert (Hn : forall x, mem (bel (mkSB (@emptyTree T))) x = false) by reflexivity.
        split; [|split; [|split; [|split; [|split]]]].
        -- simpl. split; auto. split; [apply bok_empty|]. apply Hx2 in Hp1 as (d & Hp2 & _).
           exists src, d. split; auto. intros _ x Hx. rewrite H2; auto.
        -- intros x Hx. simpl. rewrite (mem_filter _ _ x); auto.
           ++ rewrite H2 by auto. cbn. apply andb_true_r.
           ++ eapply itok_allok; eauto.
           ++ intros a b _ _ _. reflexivity.
        -- simpl. auto.
        -- simpl. lia.
        -- simpl. auto.
        -- intros p' src' [= <- <-]. right. reflexivity.
  - destruct Hl as [Ha Hb]. destruct Hr as [Ra Rb]. eapply wp_seq; [apply IHa; auto|].
    intros g1 it Hx (H1 & H2 & H3 & H4 & H5 & _). cbn [wp]. unfold rangePost. simpl. repeat split; auto; try lia.
    + eapply lok_ext; eauto.
    + intros x Hx0. rewrite !mem_app, H2; auto.
    + tauto.
    + tauto.
    + intros x Hx0. rewrite H2 by auto. apply H; auto.
    + intros; discriminate.
  - destruct Hl as [Ha Hb]. destruct Hr as [Ra Rb]. eapply wp_seq; [apply IHa; auto|].
    intros g1 it Hx (H1 & H2 & H3 & H4 & H5 & _). cbn [wp]. unfold rangePost. simpl. repeat split; auto; try lia.
    + eapply lok_ext; eauto.
    + intros x Hx0. apply mem_filter_ext; eauto using lok_allok, itok_allok, mem_predOk.
    + intros; discriminate.
  - destruct Hl as [Ha Hb]. destruct Hr as [Ra Rb]. eapply wp_seq; [apply IHa; auto|].
    intros g1 it Hx (H1 & H2 & H3 & H4 & H5 & _). cbn [wp]. unfold rangePost. simpl. repeat split; auto; try lia.
    + eapply lok_ext; eauto.
    + intros x Hx0. apply mem_filter_ext; eauto using lok_allok, itok_allok, mem_predOk, negb_predOk.
    + intros; discriminate.
  - destruct Hl as [Ha Hq]. eapply wp_seq; [apply IH; auto|].
    intros g1 it Hx (H1 & H2 & H3 & H4 & H5 & _). cbn [wp]. unfold rangePost. simpl. repeat split; auto; try lia.
    + intros x Hx0. apply mem_filter_ext; eauto using lok_allok, itok_allok, mem_predOk.
    + intros; discriminate.
  - destruct Hl as [Ha Hq]. eapply wp_seq; [apply IH; auto|].
    intros g1 it Hx (H1 & H2 & H3 & H4 & H5 & _). cbn [wp]. unfold rangePost. simpl.
    split; auto. split; [|split; [auto|split; [lia|split; [|intros; discriminate]]]].
    + apply mem_map_ext; eauto using lok_allok, itok_allok.
    + intros [Hn Hj]. split; auto. intros y z Hy Hz. rewrite !H2 by auto. auto.
  - destruct Hl as (Ha & Hnd & _ & HB & n & Hn & Hle). eapply wp_seq; [apply IH; auto|].
    intros g1 it Hx (H1 & H2 & H3 & H4 & H5 & _). cbn [wp].
    assert (Ho : allok (il it)) by (eapply itok_allok; eauto).
    assert (Hod : allok (dl src)) by (eapply lok_allok; eauto).
    assert (HB' : boxLaw (il it)) by (eapply boxLaw_mem; [|eauto]; intros; symmetry; auto).
    assert (Hn' : cardIs (il it) n) by (eapply cardIs_ext; [|eauto]; intros; symmetry; auto).
    assert (Hw : wrap 64 (2 ^ 64 - 1 + 1) = 0%N) by reflexivity.
    unfold rangePost. cbn [itok il rem icost ind target dl bound cost nodupE]. rewrite Hw.
    split; [|split; [|split; [|split; [lia|split; [auto|intros; discriminate]]]]].
    + split; auto. split; auto. split; [apply allok_nil|]. split; [constructor|]. split; [intros x _ [=]|].
      split; auto. split; [exists n; split; auto; simpl; lia|]. split; auto. split; [lia|]. split; [apply sr_empty|].
      intros w Hw0. simpl. split; [congruence|]. intros (j & e & Hj & _). destruct j; discriminate.
    + intros x Hx0. rewrite pset_start by auto. apply pset_ext; auto.
    + change (N.to_nat 1) with 1. change (N.to_nat 0) with 0. rewrite Nat.mul_1_l, Nat.sub_0_r.
      apply Nat.pow_le_mono_r; auto.
Qed.

(** ** Next and Has *)

Definition nextPost (it : liter) (g : ghost) (r : bool * liter) : Prop :=
  let '(ok, it') := r in
  if ok then
    exists v, l_value it' = Ok v /\ vok v /\ itok g it' /\
      (forall x, vok x -> mem (il it) x = (veq v x || mem (il it') x)%bool) /\
      rem it' < rem it /\ icost it' <= icost it /\ target it' = target it /\
      (ind it -> ind it' /\ mem (il it') v = false)
  else (forall x, vok x -> mem (il it) x = false) /\ (forall p, target it = Some p -> done g p).

(** The iterator skips a value. *)
Lemma nextPost_skip it mid g r :
  (forall x, vok x -> mem (il it) x = mem (il mid) x) -> rem mid <= rem it -> icost mid <= icost it ->
  target mid = target it -> (ind it -> ind mid) -> nextPost mid g r -> nextPost it g r.
Proof.
  intros Hm Hr Hc Ht Hi. destruct r as [[|] it']; cbn [nextPost].
  - intros (v & H1 & H2 & H3 & H4 & H5 & H6 & H7 & H8). exists v. repeat split; auto; try lia; try congruence.
    + intros x Hx. rewrite Hm; auto.
    + apply H8; auto.
    + apply H8; auto.
  - intros [H1 H2]. split; [|intros p; rewrite <- Ht; auto]. intros x Hx. rewrite Hm; auto.
Qed.

Lemma filter_step p l l' v x : predOk p -> allok l -> allok l' -> vok v -> vok x ->
  mem l x = (veq v x || mem l' x)%bool ->
  mem (filter p l) x = ((veq v x && p v) || mem (filter p l') x)%bool.
Proof.
  intros Hp Hl Hl' Hv Hx H. rewrite !mem_filter by auto. rewrite H.
  destruct (veq v x) eqn:Ev; simpl; auto. rewrite (Hp v x) by auto. destruct (p x); simpl; auto. symmetry. apply andb_false_r.
Qed.

Definition nextSpec (n : nat) : Prop := forall it g, itok g it -> icost it <= n -> wp (next n it) (nextPost it) g.
Definition hasSpec (n : nat) : Prop := forall e el g, lok g e -> hasOk e -> vok el -> cost e <= n ->
  wp (has n e el) (fun _ b => b = mem (dl e) el) g.
Definition hasLoopSpec (n : nat) : Prop := forall it el g, itok g it -> vok el -> rem it + icost it < n ->
  wp (hasLoop n it el) (fun _ b => b = mem (il it) el) g.

(** One step of an iterator that keeps the values passing a test. *)
Lemma next_filter n i (p : T -> bool) (mk : liter -> liter) (body : T -> liter -> prog (bool * liter)) g
    (Hil : forall i, il (mk i) = filter p (il i)) (Hrem : forall i, rem (mk i) = rem i)
    (Hcost : forall i i', rem i' < rem i -> icost i' <= icost i -> icost (mk i') < icost (mk i))
    (Htgt : forall i, target (mk i) = None) (Hind : forall i, ind (mk i) <-> ind i)
    (Hval : forall i, l_value (mk i) = l_value i)
    (Hok : forall g1 i', ext g g1 -> itok g1 i' -> itok g1 (mk i'))
    (Hbody : forall g1 v i' Q, ext g g1 -> vok v ->
       (forall g2, ext g1 g2 -> wp (if p v then Ret (true, mk i') else next n (mk i')) Q g2) -> wp (body v i') Q g1) :
  predOk p -> itok g i -> icost i <= n -> icost (mk i) <= S n ->
  (forall i' g', ext g g' -> itok g' (mk i') -> icost (mk i') <= n -> wp (next n (mk i')) (nextPost (mk i')) g') ->
  nextSpec n ->
  wp ('(ok, i') <~ next n i ;;
      if (ok : bool) then
        v <~ lift (l_value i') ;; body v i'
      else Ret (false, mk i')) (nextPost (mk i)) g.
Proof.
  intros Hp Hi Hn Hn' Hrec IH. eapply wp_seq; [apply IH; auto|].
  intros g1 [[|] i'] Hx; cbn [nextPost].
  - intros (v & Hv1 & Hv2 & Hi' & Hm & Hr & Hc & _ & Hd). apply wp_lift_bind with (a := v); auto.
    apply Hbody; auto. intros g2 Hx2.
    assert (Hi2 : itok g2 (mk i')) by (apply Hok; [eapply ext_trans; eauto|eapply itok_ext; eauto]).
    assert (Ho : allok (il i)) by (eapply itok_allok; eauto).
    assert (Ho' : allok (il i')) by (eapply itok_allok; eauto).
    assert (Hstep : forall x, vok x -> mem (il (mk i)) x = ((veq v x && p v) || mem (il (mk i')) x)%bool).
    { intros x Hx0. rewrite !Hil. apply filter_step; auto. }
    destruct (p v) eqn:Pv.
    + cbn [wp nextPost]. exists v. rewrite Hval, !Hrem, !Htgt. repeat split; auto.
      * intros x Hx0. rewrite Hstep by auto. rewrite andb_true_r. auto.
      * apply Nat.lt_le_incl. auto.
      * apply Hind. apply Hd. apply Hind; auto.
      * rewrite Hil, mem_filter by auto. apply Hind, Hd in H as [_ ->]. auto.
    + eapply wp_mono; [apply Hrec|].
      * eapply ext_trans; eauto.
      * auto.
      * specialize (Hcost i i' Hr Hc). lia.
      * intros g3 r _. apply nextPost_skip.
        -- intros x Hx0. rewrite Hstep by auto. rewrite andb_false_r. auto.
        -- rewrite !Hrem. lia.
        -- specialize (Hcost i i' Hr Hc). lia.
        -- rewrite !Htgt. auto.
        -- rewrite !Hind. intros Hd'. apply Hd; auto.
  - intros [H1 _]. cbn [wp nextPost]. split; [|intros q; rewrite Htgt; discriminate].
    intros x Hx0. rewrite Hil, mem_filter; auto.
    + rewrite H1; auto.
    + eapply itok_allok; eauto.
Qed.

Lemma lazy_spec n : nextSpec n /\ hasSpec n /\ hasLoopSpec n.
Proof.
  induction n as [|n (IHn & IHh & IHl)].
  { split; [|split].
    - intros it g _ H. destruct it; simpl in H; lia.
    - intros e el g _ _ _ H. pose proof (cost_pos e). lia.
    - intros it el g _ _ H. lia. }
  split; [|split].
  - (* Next *)
    intros it g Hi Hn.
    destruct it as [|i|i ob|i b|i b|i p|i m|i fin mask es v|i p seen]; cbn [next].
    + cbn [wp nextPost]. split; [reflexivity|]. intros p; discriminate.
    + destruct Hi as (Hi & Ho & Hd). destruct (i_next_ok (vok := vok) i Hi) as (ok & i' & E1 & Hi' & Hm).
      apply wp_lift_bind with (a := (ok, i')); auto. cbn [wp].
      destruct (remaining i) as [|x l] eqn:Hrem.
      * destruct Hm as [-> Hm]. cbn [nextPost il]. rewrite Hrem. split; [reflexivity|]. intros p; discriminate.
      * destruct Hm as (-> & Hm & Hv). cbn [nextPost]. exists x. simpl. rewrite Hrem, Hm. repeat split; auto.
        -- apply Ho; left; auto.
        -- eapply allok_tl; eauto.
        -- inversion Hd; auto.
        -- inversion Hd as [|? ? Hne _]; subst. apply mem_false. intros e He. rewrite (veq_comm (vok := vok)).
           ++ apply Hne; auto.
           ++ apply Ho; right; auto.
           ++ apply Ho; left; auto.
    + destruct Hi as [Hi Hb]. simpl in Hn. eapply wp_seq; [apply IHn; auto; destruct ob; lia|].
      intros g1 [[|] i'] Hx; cbn [nextPost].
      * intros (v & H1 & H2 & H3 & H4 & H5 & H6 & _ & H8). cbn [wp nextPost]. exists v. simpl.
        split; [auto|]. split; [auto|]. split; [split; auto; destruct ob; auto; destruct Hb; split; auto; eapply lok_ext; eauto|].
        split; [|split; [lia|split; [lia|split; [auto|]]]].
        -- intros x Hx0. rewrite !mem_app, H4 by auto. rewrite orb_assoc. auto.
        -- intros [Id Db]. destruct (H8 Id) as [Id' Hv]. split; [split; auto|].
           ++ destruct ob; auto. destruct Db as [D1 D2]. split; auto. intros x Hx0 Hx1. apply D2; auto.
              rewrite H4, Hx1 by auto. apply orb_true_r.
           ++ rewrite mem_app, Hv. simpl. destruct ob; auto. apply Db; auto. rewrite H4, veq_refl; auto.
      * intros [H1 _]. destruct ob as [b|].
        -- destruct Hb as [Hb Rb]. eapply wp_seq; [apply range_wp; auto; eapply lok_ext; eauto|].
           intros g2 j Hx2 (J1 & J2 & J3 & J4 & J5 & _).
           eapply wp_mono; [apply IHn; simpl; [auto|lia]|].
           intros g3 r _. apply nextPost_skip; simpl; try lia; auto; try tauto.
           intros x Hx0. rewrite !mem_app, H1, J2 by auto. simpl. rewrite orb_false_r. auto.
        -- cbn [wp nextPost]. split; [|intros p; discriminate]. intros x Hx0. simpl. rewrite mem_app, H1 by auto. auto.
    + destruct Hi as (Hi & Hb & Ob). simpl in Hn.
      apply next_filter with (p := mem (dl b)) (mk := fun i => ItInter i b)
        (body := fun v i' => h <~ has n b v ;; if (h : bool) then Ret (true, ItInter i' b) else next n (ItInter i' b));
        simpl; auto; try tauto; try lia.
      * intros g1 i' Hx H1. split; auto. split; auto. eapply lok_ext; eauto.
      * intros g1 v i' Q Hx Hv HQ. eapply wp_seq; [apply IHh; auto; [eapply lok_ext; eauto|lia]|].
        intros g2 h Hx2 ->. apply HQ; auto.
      * apply mem_predOk. eapply lok_allok; eauto.
    + destruct Hi as (Hi & Hb & Ob). simpl in Hn.
      apply next_filter with (p := fun x => negb (mem (dl b) x)) (mk := fun i => ItDiff i b)
        (body := fun v i' => h <~ has n b v ;; if (h : bool) then next n (ItDiff i' b) else Ret (true, ItDiff i' b));
        simpl; auto; try tauto; try lia.
      * intros g1 i' Hx H1. split; auto. split; auto. eapply lok_ext; eauto.
      * intros g1 v i' Q Hx Hv HQ. eapply wp_seq; [apply IHh; auto; [eapply lok_ext; eauto|lia]|].
        intros g2 h Hx2 ->. specialize (HQ g2 Hx2). cbv beta in HQ. destruct (mem (dl b) v); auto.
      * apply negb_predOk, mem_predOk. eapply lok_allok; eauto.
    + destruct Hi as (Hi & Hp). simpl in Hn.
      apply next_filter with (p := p) (mk := fun i => ItWhere i p)
        (body := fun v i' => if p v then Ret (true, ItWhere i' p) else next n (ItWhere i' p));
        simpl; auto; try tauto; try lia.
      intros g1 v i' Q Hx Hv HQ. apply HQ. apply ext_refl.
    + destruct Hi as [Hi Hm]. simpl in Hn. eapply wp_seq; [apply IHn; auto; lia|].
      assert (Ho : allok (il i)) by (eapply itok_allok; eauto).
      intros g1 [[|] i'] Hx; cbn [nextPost].
      * intros (v & H1 & H2 & H3 & H4 & H5 & H6 & _ & H8). cbn [wp nextPost]. exists (m v). simpl. rewrite H1.
        assert (Ho' : allok (il i')) by (eapply itok_allok; eauto).
        split; [auto|]. split; [apply Hm; auto|]. split; [auto|].
        split; [|split; [lia|split; [lia|split; [auto|]]]].
        -- intros x Hx0. change (veq (m v) x || mem (map m (il i')) x)%bool with (mem (map m (v :: il i')) x).
           apply mem_map_ext; auto. apply allok_cons; auto.
        -- intros [Id Inj]. destruct (H8 Id) as [Id' Hv].
           assert (Hsub : forall x, vok x -> mem (il i') x = true -> mem (il i) x = true).
           { intros x Hx0 Hx1. rewrite H4, Hx1 by auto. apply orb_true_r. }
           split; [split; auto; intros y z; auto|].
           apply mem_false. intros e He. apply in_map_iff in He as (y & <- & Hy).
           assert (Hy1 : vok y) by (apply Ho'; auto).
           assert (Hy2 : mem (il i') y = true).
           { apply mem_true. exists y. split; auto. apply veq_refl; auto. }
           destruct (veq (m y) (m v)) eqn:Ev; auto. exfalso.
           assert (Hyv : veq y v = true).
           { apply Inj; auto. rewrite H4, veq_refl; auto. }
           rewrite (mem_veq (il i') y v) in Hy2 by auto. congruence.
      * intros [H1 _]. cbn [wp nextPost]. split; [|intros p; discriminate]. intros x Hx0. simpl.
        destruct (il i) as [|y l]; auto. exfalso.
        assert (Hy : vok y) by (apply Ho; left; auto). specialize (H1 y Hy). simpl in H1.
        rewrite veq_refl in H1 by auto. discriminate.
    + cbn [itok] in Hi. cbn [icost] in Hn. set (m1 := wrap 64 (mask + 1)) in *.
      destruct Hi as (Hi & Hid & Ho & Hd & Hdj & HB & (c & Hc & Hle) & Hfin & Hm & Hv & Hmv).
      assert (Hr : allok (il i)) by (eapply itok_allok; eauto).
      pose proof (card_nonneg _ _ Hc) as Hc0.
      destruct (N.ltb_spec m1 fin) as [Hlt|Hge].
      * destruct (pow_step (vok := vok) es (il i) m1 v) as (v' & E1 & Hs' & Hm' & Hb & Hstep & Hfresh); auto; [lia|congruence|].
        eapply wp_lift_bind; [exact E1|]. cbn [wp nextPost]. exists (box v').
        assert (Hw : wrap 64 (m1 + 1) = (m1 + 1)%N).
        { apply wrap_small. eapply N.le_lt_trans with (m := fin); [lia|]. rewrite Hfin. apply N.pow_lt_mono_r; lia. }
        cbn [l_value il itok rem icost target ind]. fold m1. rewrite Hw. rewrite Hfin in *.
        split; auto. split; auto. split; [|split; [auto|split; [|split; [auto|split; auto]]]].
        -- repeat (split; [auto; fail|]). split; [eauto|]. split; auto. split; [lia|]. split; auto.
           replace (N.pred (m1 + 1)) with m1 by lia. auto.
        -- assert (H1 : 2 ^ rem i <> 0) by (apply Nat.pow_nonzero; lia). nia.
      * assert (Em : m1 = fin) by lia. destruct (N.ltb_spec fin m1) as [Hx|_]; [lia|].
        eapply wp_seq; [apply IHn; auto; lia|]. intros g1 [[|] i'] Hx; cbn [nextPost].
        -- intros (v1 & H1 & H2 & H3 & H4 & H5 & H6 & _ & H8). destruct (H8 Hid) as [Hid' Hfresh1].
           apply wp_lift_bind with (a := v1); auto.
           assert (Hr' : allok (il i')) by (eapply itok_allok; eauto).
           set (es' := es ++ [v1]). assert (Hlen : length es' = S (length es)) by (unfold es'; rewrite app_length; simpl; lia).
           assert (Hmi : mem (il i) v1 = true) by (rewrite H4, veq_refl; auto).
           destruct (card_step (vok := vok) (il i) (il i') v1 c) as (c' & Hc' & Ec); auto.
           pose proof (card_nonneg _ _ Hc') as Hc0'.
           assert (Ho' : allok es') by (apply allok_app; split; auto; apply allok_cons; auto; apply allok_nil).
           assert (Hd' : distinct es').
           { apply distinct_app. split; auto. split; [constructor; [intros b []|constructor]|].
             intros a b Ha [<-|[]]. destruct (veq a v1) eqn:Ea; auto. exfalso.
             assert (mem es v1 = true) by (apply mem_true; exists a; auto). rewrite (Hdj v1) in Hmi; auto. discriminate. }
           assert (Hdj' : disjoint es' (il i')).
           { intros x Hx0. unfold es'. rewrite mem_app. simpl. rewrite orb_false_r. intros Hx1.
             destruct (mem (il i') x) eqn:Ex; auto. exfalso. apply orb_true_iff in Hx1 as [Hx1|Hx1].
             - specialize (Hdj x Hx0 Hx1). rewrite H4, Ex, orb_true_r in Hdj by auto. discriminate.
             - rewrite <- (mem_veq (il i') v1 x) in Ex by auto. congruence. }
           assert (HB' : boxLaw (es' ++ il i')).
           { eapply boxLaw_mem; [|exact HB]. intros x Hx0. unfold es'. rewrite !mem_app, H4 by auto. simpl.
             rewrite orb_false_r, orb_assoc. auto. }
           assert (Hfin' : wshl 64 fin 1 = (2 ^ N.of_nat (length es'))%N).
           { rewrite Hfin, Hlen, Nat2N.inj_succ, N.pow_succ_r'. unfold wshl. simpl (64 <=? 1).
             change (N.of_nat 1) with 1%N. rewrite N.shiftl_mul_pow2, N.pow_1_r, N.mul_comm. apply wrap_small.
             rewrite <- N.pow_succ_r'. apply N.pow_lt_mono_r; lia. }
           assert (Hpow : (2 ^ N.of_nat (length es') = 2 * 2 ^ N.of_nat (length es))%N).
           { rewrite Hlen, Nat2N.inj_succ, N.pow_succ_r'. auto. }
           assert (Hpos : (0 < 2 ^ N.of_nat (length es))%N) by (apply N.neq_0_lt_0, N.pow_nonzero; lia).
           assert (Hmv' : matches es' v (gray (N.pred m1))) by (apply matches_snoc; [lia|auto]).
           destruct (pow_step (vok := vok) es' (il i') m1 v) as (v' & E1 & Hs' & Hm' & Hb & Hstep & Hfresh); auto; try lia.
           fold es'. eapply wp_lift_bind; [exact E1|]. cbn [wp nextPost]. exists (box v').
           assert (Hw : wrap 64 (m1 + 1) = (m1 + 1)%N).
           { apply wrap_small. eapply N.le_lt_trans with (m := (2 ^ N.of_nat (length es'))%N); [lia|]. apply N.pow_lt_mono_r; lia. }
           cbn [l_value il itok rem icost target ind]. fold m1. rewrite Hw, Hfin'.
           split; auto. split; auto. split; [|split; [|split; [|split; [lia|split; auto]]]].
           ++ repeat (split; [auto; fail|]). split; [exists c'; split; auto; lia|]. split; auto. split; [lia|]. split; auto.
              replace (N.pred (m1 + 1)) with m1 by lia. auto.
           ++ intros x Hx0. rewrite <- Hstep by auto. rewrite Hfin at 1. apply laterList_ext; auto.
              intros u Hu. rewrite Em, Hfin. apply later_grow; auto.
           ++ assert (Hq : 2 ^ rem i' <> 0) by (apply Nat.pow_nonzero; lia).
              assert (Hq' : 2 * 2 ^ rem i' <= 2 ^ rem i).
              { change (2 * 2 ^ rem i') with (2 ^ S (rem i')). apply Nat.pow_le_mono_r; lia. }
              rewrite Hpow, Em, Hfin. rewrite N2Nat.inj_mul. change (N.to_nat 2) with 2. nia.
        -- intros [H1 _]. cbn [wp nextPost]. split; [|intros p; discriminate]. intros x Hx0. cbn [il]. fold m1.
           destruct (mem (laterList es (il i) m1 fin) x) eqn:Ex; auto. exfalso.
           rewrite Hfin in Ex. apply (laterList_mem (vok := vok)) in Ex as (u & Hu & Hlu & _); auto.
           rewrite Em, Hfin in Hlu. apply later_none in Hlu; auto.
    + destruct Hi as (Hi & Hs & src & d & Hp & Hden). simpl in Hn. eapply wp_seq; [apply IHn; auto; lia|].
      assert (Ho : allok (il i)) by (eapply itok_allok; eauto).
      assert (Hso : allok (bel seen)) by (apply bok_allok; auto).
      intros g1 [[|] i'] Hx; cbn [nextPost].
      * intros (v & H1 & H2 & H3 & H4 & H5 & H6 & _ & _). apply wp_lift_bind with (a := v); auto.
        assert (Ho' : allok (il i')) by (eapply itok_allok; eauto).
        apply wp_lift_bind with (a := isSome (lookup (bel seen) v)); [apply (sb_has_ok (vok := vok)); auto|].
        rewrite <- mem_lookup. destruct (mem (bel seen) v) eqn:Hsv.
        -- eapply wp_mono; [apply IHn|].
           ++ simpl. split; auto. split; auto. apply Hx in Hp as (d' & Hp & _). exists src, d'. split; auto.
              intros R x Hx0. rewrite Hden by auto. rewrite H4 by auto.
              destruct (veq v x) eqn:Ev; auto. simpl. rewrite <- (mem_veq (bel seen) v x) by auto. rewrite Hsv. auto.
           ++ simpl. lia.
           ++ intros g2 r _. apply nextPost_skip; simpl; auto; try lia.
              intros x Hx0. rewrite (filter_step _ (il i) (il i') v x); auto using negb_predOk, mem_predOk.
              cbv beta. rewrite Hsv. simpl. rewrite andb_false_r. auto.
        -- destruct (sb_add_ok (vok := vok) seen v Hs H2) as (seen' & E1 & Hs' & Hl' & _).
           apply wp_lift_bind with (a := seen'); auto. cbn [wp nextPost]. exists v.
           assert (Hseen : forall x, vok x -> mem (bel seen') x = (veq v x || mem (bel seen) x)%bool).
           { intros x Hx0. rewrite !mem_lookup, Hl' by auto. destruct (veq v x); auto. }
           assert (Hso' : allok (bel seen')) by (apply bok_allok; auto).
           simpl. split; [auto|]. split; [auto|]. split; [split; [auto|split; [exact Hs'|]]|].
           ++ apply Hx in Hp as (d' & Hp & _). exists src, d'. split; auto. intros R x Hx0.
              rewrite Hden, H4, Hseen by auto. destruct (veq v x), (mem (bel seen) x); auto.
           ++ split; [|split; [auto|split; [lia|split; [auto|intros _; split; [auto|]]]]].
              intros x Hx0. rewrite !mem_filter by auto using negb_predOk, mem_predOk.
              rewrite H4, Hseen by auto. destruct (veq v x) eqn:Ev; simpl; auto.
              rewrite <- (mem_veq (bel seen) v x) by auto. rewrite Hsv. reflexivity.
              rewrite mem_filter by auto using negb_predOk, mem_predOk. rewrite Hseen, veq_refl by auto.
              simpl. apply andb_false_r.
      * intros [H1 _]. destruct (sb_finish seen) as [f seen'] eqn:Ef. cbn [wp].
        assert (Hf : sel f = bel seen /\ sok f).
        { replace f with (fst (sb_finish seen)) by (rewrite Ef; auto). split; auto. }
        destruct Hf as [Hfs Hf].
        apply Hx in Hp as (d' & Hp & _). exists src, d'. split; auto. split.
        -- split; auto. intros f' [= <-]. split; auto. intros R x Hx0. rewrite Hfs, Hden, H1 by auto.
           rewrite orb_false_r. auto.
        -- intros g2 Hx2. cbn [nextPost]. split.
           ++ intros x Hx0. simpl. rewrite mem_filter by auto using negb_predOk, mem_predOk. rewrite H1; auto.
           ++ intros q [= <-]. apply Hx2 in Hp as (d2 & Hp & _). eapply mark_done; eauto.
  - (* Has *)
    intros e el g Hl Ho Hv Hn.
    destruct e as [|s|p src|a b|a b|a b|src q|src m|src]; cbn [has]; simpl in Hn.
    + reflexivity.
    + eapply wp_lift; [apply (s_has_ok (vok := vok)); auto|]. symmetry. apply mem_lookup.
    + destruct Hl as (Hp & Hr & Hl). destruct Ho as [Ho Hro]. apply wp_load with (src := src); auto.
      intros g1 o Hx Hp1 [_ Hc]. destruct o as [f|].
      * destruct (Hc f eq_refl) as [Hf Hm]. eapply wp_lift; [apply (s_has_ok (vok := vok)); auto|].
        rewrite <- mem_lookup. simpl. auto.
      * simpl. apply IHh; auto; [eapply lok_ext; eauto|lia].
    + destruct Hl as [Ha Hb]. destruct Ho as [Oa Ob]. eapply wp_seq; [apply IHh; auto; lia|].
      intros g1 x Hx ->. simpl. rewrite mem_app. destruct (mem (dl a) el); simpl; [reflexivity|].
      apply IHh; auto; [eapply lok_ext; eauto|lia].
    + destruct Hl as [Ha Hb]. destruct Ho as [Oa Ob]. eapply wp_seq; [apply IHh; auto; lia|].
      intros g1 x Hx ->. simpl. rewrite mem_filter by eauto using mem_predOk, lok_allok.
      destruct (mem (dl a) el); simpl; [|reflexivity].
      apply IHh; auto; [eapply lok_ext; eauto|lia].
    + destruct Ho.
    + destruct Hl as [Ha Hq]. simpl. rewrite mem_filter by eauto using lok_allok.
      destruct (q el); simpl; [|rewrite andb_false_r; reflexivity]. rewrite andb_true_r. apply IHh; auto; lia.
    + destruct Hl as [Ha Hm].
      eapply wp_seq with (P := fun g' it => itok g' it /\
        (forall x, vok x -> mem (il it) x = mem (dl (LMap src m)) x) /\ rem it <= bound src /\ icost it <= 1 + cost src).
      * cbn [l_range]. eapply wp_seq; [apply range_wp; auto|].
        intros g1 i Hx (J1 & J2 & J3 & J4 & _ & _). cbn [wp]. simpl. repeat split; auto; try apply Hm; try lia.
        apply mem_map_ext; eauto using itok_allok, lok_allok.
      * intros g1 it Hx (J1 & J2 & J3 & J4). eapply wp_mono; [apply IHl; auto; lia|].
        intros g2 b _ ->. apply J2; auto.
    + destruct Ho.
  - (* the loop of Has *)
    intros it el g Hi Hv Hn. cbn [hasLoop]. eapply wp_seq; [apply IHn; auto; lia|].
    intros g1 [[|] it'] Hx; cbn [nextPost].
    + intros (v & H1 & H2 & H3 & H4 & H5 & H6 & _ & _). apply wp_lift_bind with (a := v); auto.
      rewrite H4 by auto. rewrite (veq_comm (vok := vok) el v) by auto. destruct (veq v el); [reflexivity|].
      simpl. apply IHl; auto. lia.
    + intros [H1 _]. cbn [wp]. rewrite H1; auto.
Qed.

End LazyFacts.
