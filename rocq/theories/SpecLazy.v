(** * SpecLazy: every program over the lazy package gets the right answers (C35-C39). *)
From Verif Require Import Base Bits Env EnvFacts Node NodeWf Iter Tree TreeFacts SetApi SetFacts ExtraFacts Reach Spec SpecSet
  BitFacts PowersetFacts Lazy LazyLists LazyFacts LazyOps LazyOps2 LazyWeak LazyRun LazyScript.
Local Open Scope Z_scope.

Section SpecLazy.
Context {E : Env} {HE : EnvOk E} {T : Type} {K : Key T} {vok : T -> Prop} {KO : KeyOk K vok} {B : Boxes T}.
Notation lset := (lset T).
Notation liter := (liter T).
Notation uexp := (uexp T).
Notation prog := (prog T).
Notation gst := (gst T).
Notation sok := (sok vok).
Notation allok := (NodeWf.allok vok).
Notation ghost := (@ghost T).
Notation wp := (wp (vok := vok)).
Notation lok := (lok (vok := vok)).
Notation itok := (itok (vok := vok)).
Notation made := (made (vok := vok)).
Notation Member := (Member vok).

Lemma lists_iff l (P : T -> bool) (Q : T -> Prop) : (forall x, vok x -> (P x = true <-> Q x)) ->
  Lists vok l Q <-> allok l /\ distinct l /\ forall x, vok x -> mem l x = P x.
Proof.
  intros HP. split.
  - intros (H1 & H2 & H3). split; [exact H1|]. split.
    + clear H3. induction l as [|a l IH]; constructor.
      * intros y Hy. apply In_nth_error in Hy as [n Hn]. apply (H2 0%nat (S n) a y); auto.
      * apply IH.
        -- intros e He. apply H1. right; auto.
        -- intros i j a' b' Hi Hj Hij. apply (H2 (S i) (S j) a' b'); auto.
    + intros x Hx. apply eq_true_iff_eq. rewrite HP, H3 by auto. apply mem_true.
  - intros (H1 & H2 & H3). split; [exact H1|]. split; [apply (distinct_Unequal (vok := vok)); auto|].
    intros x Hx. rewrite <- HP, <- H3 by auto. apply mem_true.
Qed.

(** What is known of the sets a goroutine holds. *)
Definition setOk (g : ghost) (ue : uexp * lset) : Prop :=
  let '(u, e) := ue in
  exists P, (forall x, vok x -> (P x = true <-> Member u x)) /\
    made P (HasFine u) (OnceFine vok u) (CountFine vok u) (FastFine u) (Held u) (Solid u) g e.

(** And of the iterators. *)
Definition iterOk (g : ghost) (k : uexp * list T * option liter) : Prop :=
  let '(u, given, oit) := k in
  match oit with
  | None => True
  | Some it =>
      itok g it /\ allok given /\
      (forall x, vok x -> (mem given x || mem (il it) x)%bool = true <-> Member u x) /\
      (OnceFine vok u -> ind (vok := vok) it /\ distinct given /\ forall y, In y given -> mem (il it) y = false)
  end.

Definition stOk (g : ghost) (st : gst) : Prop :=
  (forall ue, In ue (g_sets st) -> setOk g ue) /\ (forall k, In k (g_iters st) -> iterOk g k).

Lemma setOk_ext g g' ue : ext g g' -> setOk g ue -> setOk g' ue.
Proof. destruct ue as [u e]. intros Hx (P & HP & Hm). exists P. split; auto. eapply made_ext; eauto. Qed.

Lemma iterOk_ext g g' k : ext g g' -> iterOk g k -> iterOk g' k.
Proof.
  destruct k as [[u given] [it|]]; auto. intros Hx (H1 & H2 & H3 & H4). split; auto. eapply itok_ext; eauto.
Qed.

Lemma stOk_ext g g' st : ext g g' -> stOk g st -> stOk g' st.
Proof. intros Hx [H1 H2]. split; intros; [eapply setOk_ext|eapply iterOk_ext]; eauto. Qed.

Lemma setOk_empty g : setOk g (UEmpty, LEmpty).
Proof. exists (fun _ => false). split; [intros; simpl; split; [discriminate|tauto]|]. apply made_empty; auto. Qed.

Lemma theSet_ok g st i : stOk g st -> setOk g (theSet st i).
Proof.
  intros [H _]. unfold theSet. destruct (nth_in_or_default i (g_sets st) (UEmpty, LEmpty)) as [Hi| ->]; auto using setOk_empty.
Qed.

Lemma addSet_ok g st u e : stOk g st -> setOk g (u, e) -> stOk g (addSet st u e).
Proof.
  intros [H1 H2] Hu. split; auto. intros ue Hi. simpl in Hi. apply in_app_iff in Hi as [Hi|[<-|[]]]; auto.
Qed.

Lemma setOk_parts g u e : setOk g (u, e) -> lok g e /\ rangeOk e /\ (HasFine u -> hasOk e) /\
  (OnceFine vok u -> nodupE (vok := vok) e) /\ (CountFine vok u -> countOk (vok := vok) e) /\ (FastFine u -> fastOk e) /\
  (Solid u -> e <> LEmpty) /\ (forall x, vok x -> (mem (dl e) x = true <-> Member u x)).
Proof.
  intros (P & HP & H1 & H2 & H3 & H4 & H5 & H6 & H7 & H8 & H9).
  split; auto. split; auto. split; auto. split; auto. split; auto. split; auto. split; auto.
  intros x Hx. rewrite H2 by auto. apply HP; auto.
Qed.

Lemma card_iff g u e n : setOk g (u, e) -> Card vok u n <-> cardIs (vok := vok) (dl e) n.
Proof.
  intros H. apply setOk_parts in H as (_ & _ & _ & _ & _ & _ & _ & Hm).
  split.
  - intros (l & Hl & ->). apply (lists_iff l (mem (dl e))) in Hl as (A & D & M); auto.
    exists l. auto.
  - intros (l & A & D & M & ->). exists l. split; auto. apply (lists_iff l (mem (dl e))); auto.
Qed.

Lemma same_iff l1 l2 u w : (forall x, vok x -> (mem l1 x = true <-> Member u x)) ->
  (forall x, vok x -> (mem l2 x = true <-> Member w x)) ->
  (sameAs (vok := vok) l1 l2 <-> forall x, vok x -> (Member u x <-> Member w x)).
Proof.
  intros H1 H2. unfold sameAs. split; intros H x Hx; specialize (H x Hx).
  - rewrite <- H1, <- H2, H by auto. tauto.
  - apply eq_true_iff_eq. rewrite H1, H2 by auto. auto.
Qed.

Lemma noneIn_iff e u : (forall x, vok x -> (mem (dl e) x = true <-> Member u x)) ->
  (noneIn (vok := vok) e <-> forall x, vok x -> ~ Member u x).
Proof.
  intros Hm. unfold noneIn. split; intros H x Hx; specialize (H x Hx).
  - rewrite <- Hm, H by auto. discriminate.
  - destruct (mem (dl e) x) eqn:Ex; auto. destruct H. apply Hm; auto.
Qed.

Definition callPost (us : list uexp) (c : call T) (g : ghost) (r : list (answer T) * gst) : Prop :=
  (forall a, In a (fst r) -> Right vok a) /\ stOk g (snd r) /\ map fst (g_sets (snd r)) = grow us c.

Lemma nthU_the (st : gst) i : nthU (map fst (g_sets st)) i = fst (theSet st i).
Proof. unfold nthU, theSet. change (@UEmpty T) with (fst (@UEmpty T, @LEmpty T)). apply map_nth. Qed.

Lemma make_wp st u m g c : stOk g st -> made_by (map fst (g_sets st)) c = Some u ->
  wp m (fun g' e => setOk g' (u, e)) g -> wp (make st u m) (callPost (map fst (g_sets st)) c) g.
Proof.
  intros Hs Hc Hw. unfold make. eapply wp_seq; [exact Hw|]. intros g1 e Hx He. cbn [LazyFacts.wp].
  split; [intros a []|]. split.
  - apply addSet_ok; auto. eapply stOk_ext; eauto.
  - unfold grow. rewrite Hc. simpl. rewrite map_app. reflexivity.
Qed.

Lemma ask_wp {A} st (m : prog A) (mk : A -> answer T) g c : stOk g st -> made_by (map fst (g_sets st)) c = None ->
  wp m (fun _ r => Right vok (mk r)) g -> wp (ask st m mk) (callPost (map fst (g_sets st)) c) g.
Proof.
  intros Hs Hc Hw. unfold ask. eapply wp_seq; [exact Hw|]. intros g1 e Hx He. cbn [LazyFacts.wp].
  split; [intros a [<-|[]]; auto|]. split.
  - eapply stOk_ext; eauto.
  - unfold grow. rewrite Hc. reflexivity.
Qed.

(** A method whose answer is only claimed to be right under a condition: it ends in any case. *)
Lemma wp_if {A} (m : prog A) (C : Prop) (Q : A -> Prop) g :
  wp m (fun _ _ => True) g -> (C -> wp m (fun _ r => Q r) g) -> wp m (fun _ r => C -> Q r) g.
Proof.
  revert g. induction m as [a| | |p k IH|p f k IH|src k IH]; intros g; cbn [LazyFacts.wp]; auto.
  - intros (src & d & Hp & H) HC. exists src, d. split; auto. intros g' o Hx Hp' Hc. apply IH; auto.
    intros c. destruct (HC c) as (src' & d' & Hp2 & H2). assert (src' = src) by congruence. subst src'. auto.
  - intros (src & d & Hp & Hc & H) HC. exists src, d. split; auto. split; auto. intros g' Hx. apply IH; auto.
    intros c. destruct (HC c) as (src' & d' & Hp2 & Hc2 & H2). auto.
  - intros (Hl & Hr & Hg & H) HC. split; auto. split; auto. split; auto. intros g' Hx. apply IH; auto.
    intros c. destruct (HC c) as (_ & _ & _ & H2). auto.
Qed.

Lemma ends_all {A} (m : prog A) (X : Type) (C : X -> Prop) (Q : X -> A -> Prop) g :
  wp m (fun _ _ => True) g -> (forall x, C x -> wp m (fun _ r => Q x r) g) -> wp m (fun _ r => forall x, C x -> Q x r) g.
Proof.
  revert g. induction m as [a| | |p k IH|p f k IH|src k IH]; intros g; cbn [LazyFacts.wp]; auto.
  - intros (src & d & Hp & H) HC. exists src, d. split; auto. intros g' o Hx Hp' Hc. apply IH; auto.
    intros x c. destruct (HC x c) as (src' & d' & Hp2 & H2). assert (src' = src) by congruence. subst src'. auto.
  - intros (src & d & Hp & Hc & H) HC. exists src, d. split; auto. split; auto. intros g' Hx. apply IH; auto.
    intros x c. destruct (HC x c) as (src' & d' & Hp2 & Hc2 & H2). auto.
  - intros (Hl & Hr & Hg & H) HC. split; auto. split; auto. split; auto. intros g' Hx. apply IH; auto.
    intros x c. destruct (HC x c) as (_ & _ & _ & H2). auto.
Qed.

Lemma map_pred g e m (P : T -> bool) : lok g e -> mapOk (vok := vok) m -> (forall x, vok x -> mem (dl e) x = P x) ->
  forall x, vok x -> mem (map m (dl e)) x = true <-> exists y, vok y /\ P y = true /\ veq (m y) x = true.
Proof.
  intros Hl [Hm1 Hm2] HP x Hx. pose proof (lok_allok (vok := vok) _ _ Hl) as Ho. rewrite mem_map, existsb_exists. split.
  - intros (y & Hy & Hv). exists y. split; [apply Ho; auto|]. split; auto. rewrite <- HP by (apply Ho; auto).
    apply mem_true. exists y. split; auto. apply veq_refl. apply Ho; auto.
  - intros (y & Hy & Hpy & Hv). rewrite <- HP in Hpy by auto. apply mem_true in Hpy as (z & Hz & Hzy).
    exists z. split; auto. apply (veq_trans (vok := vok)) with (m y); auto.
Qed.

Lemma not_true_iff (b : bool) (P : Prop) : (b = true <-> P) -> (b = false <-> ~ P).
Proof. intros H. destruct b; split; intros; try discriminate; try tauto. rewrite <- H. discriminate. Qed.

Lemma In_set_nth {X} (l : list X) k x y : In y (set_nth l k x) -> y = x \/ In y l.
Proof.
  revert k. induction l as [|a l IH]; intros [|k]; simpl; auto.
  - intros [<-|H]; auto.
  - intros [<-|H]; auto. apply IH in H. tauto.
Qed.

Lemma distinct_snoc l v : distinct l -> (forall y, In y l -> veq y v = false) -> distinct (l ++ [v]).
Proof.
  intros Hd H. apply distinct_app. split; auto. split; [constructor; [intros y []|constructor]|].
  intros a b Ha [<-|[]]. auto.
Qed.

Lemma has_mem s y : sok s -> vok y -> Has s y <-> mem (sel s) y = true.
Proof. intros Hs Hy. rewrite (has_lookup (vok := vok)), mem_lookup by auto. destruct (NodeWf.lookup (sel s) y); simpl; split; congruence. Qed.

Lemma box_law u l : (forall x, vok x -> (mem l x = true <-> Member u x)) ->
  let Sub s := SetReach vok s /\ forall y, vok y -> Has s y -> Member u y in
  (forall s, Sub s -> vok (box s)) /\
  (forall s t, Sub s -> Sub t -> (veq (box s) (box t) = true <-> SameMembers vok s t)) /\
  (forall x s, vok x -> unbox x = Some s -> SetReach vok s) -> boxLaw (vok := vok) l.
Proof.
  intros Hl Sub (H1 & H2 & H3).
  assert (Hsub : forall s, SetReach vok s -> sub (vok := vok) s l -> Sub s).
  { intros s Hs Hsl. split; auto. intros y Hy Hh. apply Hl; auto. apply Hsl; auto. apply (has_mem s y); auto using rok_ok. }
  split; [auto|split; [|exact H3]]. intros a b Ha Hb Sa Sb. rewrite H2 by auto. rewrite seqv_mem.
  split; intros H w Hw; specialize (H w Hw).
  - apply eq_true_iff_eq. rewrite <- !has_mem by auto using rok_ok. auto.
  - rewrite !has_mem by auto using rok_ok. rewrite H. tauto.
Qed.

Lemma runCall_wp c st g : stOk g st -> ArgOk vok c ->
  match made_by (map fst (g_sets st)) c with Some u => RangeFine u | None => True end ->
  match c with CPow i => PowFine vok (nthU (map fst (g_sets st)) i) | _ => True end ->
  wp (runCall c st) (callPost (map fst (g_sets st)) c) g.
Proof.
  intros Hs Ha Hr Hpow.
  assert (Hset : forall i, setOk g (theSet st i)) by (intros; apply theSet_ok; auto).
  assert (Hget : forall i u e, theSet st i = (u, e) -> setOk g (u, e) /\ nthU (map fst (g_sets st)) i = u).
  { intros i u e Hi. rewrite nthU_the, <- Hi. split; auto. rewrite Hi. auto. }
  destruct c as [|s|i v|i v|i p|i m|i j|i j|i j|i j|i|i|i x|i x|i|i|i|i|i lim|i lim|i j|i j|i j|i seed|i|k];
    cbn [runCall]; cbn [made_by] in Hr; cbn [ArgOk] in Ha.
  - (* EmptySet *) apply make_wp; auto. apply setOk_empty.
  - (* Frozen *) apply make_wp; auto. cbn [LazyFacts.wp]. apply sreach_ok in Ha.
    exists (mem (sel s)). split.
    + intros x Hx. simpl. rewrite (has_lookup (vok := vok)) by auto. rewrite mem_lookup.
      destruct (NodeWf.lookup (sel s) x); simpl; split; congruence.
    + apply made_frozen; auto.
  - (* With *) destruct (theSet st i) as [u e] eqn:Hi. destruct (Hget _ _ _ Hi) as [(P & HP & Hm) Hu].
    apply make_wp; auto; [simpl; rewrite Hu; auto|].
    eapply wp_mono; [eapply with_wp; eauto|]. intros g1 r Hx Hm'. exists (fun x => veq v x || P x)%bool. split.
    + intros x Hx0. simpl. rewrite orb_true_iff, HP by auto. tauto.
    + eapply made_imp; [exact Hm'|..]; auto; try tauto.
      simpl. intros [h|[h1 h2]]; auto. right. split; auto. apply (not_true_iff _ _ (HP v Ha)). auto.
  - (* Without *) destruct (theSet st i) as [u e] eqn:Hi. destruct (Hget _ _ _ Hi) as [(P & HP & Hm) Hu].
    apply make_wp; auto; [simpl; rewrite Hu; auto|].
    eapply wp_mono; [eapply without_wp; eauto|]. intros g1 r Hx Hm'. exists (fun x => negb (veq v x) && P x)%bool. split.
    + intros x Hx0. simpl. rewrite andb_true_iff, negb_true_iff, HP by auto. tauto.
    + eapply made_imp; [exact Hm'|..]; auto; try tauto. intros [h _]; exact h.
  - (* Where *) destruct (theSet st i) as [u e] eqn:Hi. destruct (Hget _ _ _ Hi) as [(P & HP & Hm) Hu].
    apply make_wp; auto; [simpl; rewrite Hu; auto|].
    eapply wp_mono; [eapply where_wp; eauto|]. intros g1 r Hx Hm'. exists (fun x => P x && p x)%bool. split.
    + intros x Hx0. simpl. rewrite andb_true_iff, HP by auto. tauto.
    + eapply made_imp; [exact Hm'|..]; auto; try tauto.
  - (* Map *) destruct (theSet st i) as [u e] eqn:Hi. destruct (Hget _ _ _ Hi) as [(P & HP & Hm) Hu].
    apply make_wp; auto; [simpl; rewrite Hu; auto|].
    assert (HP' : forall x, vok x -> mem (map m (dl e)) x = true <-> exists y, vok y /\ P y = true /\ veq (m y) x = true).
    { eapply map_pred; eauto; apply Hm. }
    eapply wp_mono; [eapply map_wp with (P' := mem (map m (dl e))); eauto|].
    intros g1 r Hx Hm'. exists (mem (map m (dl e))). split.
    + intros x Hx0. simpl. rewrite HP' by auto. split; intros (y & Hy & Hp & Hv); exists y; split; auto; split; auto;
        apply HP; auto.
    + eapply made_imp; [exact Hm'|..]; auto; try tauto. simpl. intros [h|[h1 h2]]; auto. right. split; auto.
      intros y z Hy Hz Py Pz. apply h2; auto; apply HP; auto.
  - (* Union *) destruct (theSet st i) as [u e] eqn:Hi. destruct (Hget _ _ _ Hi) as [(P & HP & Hm) Hu].
    destruct (theSet st j) as [w t] eqn:Hj. destruct (Hget _ _ _ Hj) as [(P2 & HP2 & Hm2) Hw].
    apply make_wp; auto; [simpl; rewrite Hu, Hw; auto|].
    eapply wp_mono; [eapply union_call_wp; eauto|]. intros g1 r Hx Hm'. exists (fun x => P x || P2 x)%bool. split.
    + intros x Hx0. simpl. rewrite orb_true_iff, HP, HP2 by auto. tauto.
    + eapply made_imp; [exact Hm'|..]; auto; try tauto. simpl. intros (h1 & h2 & h3). split; auto. split; auto.
      intros x Hx0 Hp. apply (not_true_iff _ _ (HP2 x Hx0)). apply h3; auto. apply HP; auto.
  - (* Intersection *) destruct (theSet st i) as [u e] eqn:Hi. destruct (Hget _ _ _ Hi) as [(P & HP & Hm) Hu].
    destruct (theSet st j) as [w t] eqn:Hj. destruct (Hget _ _ _ Hj) as [(P2 & HP2 & Hm2) Hw].
    rewrite Hu, Hw in Hr. destruct Hr as [Ru Rw].
    apply make_wp; auto; [simpl; rewrite Hu, Hw; auto|].
    eapply wp_mono; [eapply intersection_wp; eauto|]. intros g1 r Hx Hm'. exists (fun x => P x && P2 x)%bool. split.
    + intros x Hx0. simpl. rewrite andb_true_iff, HP, HP2 by auto. tauto.
    + eapply made_imp; [exact Hm'|..]; auto; try tauto.
  - (* Difference *) destruct (theSet st i) as [u e] eqn:Hi. destruct (Hget _ _ _ Hi) as [(P & HP & Hm) Hu].
    destruct (theSet st j) as [w t] eqn:Hj. destruct (Hget _ _ _ Hj) as [(P2 & HP2 & Hm2) Hw].
    rewrite Hu, Hw in Hr. destruct Hr as [Ru Rw].
    apply make_wp; auto; [simpl; rewrite Hu, Hw; auto|].
    eapply wp_mono; [eapply difference_call_wp; eauto|]. intros g1 r Hx Hm'. exists (fun x => P x && negb (P2 x))%bool. split.
    + intros x Hx0. simpl. rewrite andb_true_iff, negb_true_iff, HP by auto. rewrite (not_true_iff _ _ (HP2 x Hx0)). tauto.
    + eapply made_imp; [exact Hm'|..]; auto; try tauto.
  - (* SymmetricDifference *) destruct (theSet st i) as [u e] eqn:Hi. destruct (Hget _ _ _ Hi) as [(P & HP & Hm) Hu].
    destruct (theSet st j) as [w t] eqn:Hj. destruct (Hget _ _ _ Hj) as [(P2 & HP2 & Hm2) Hw].
    rewrite Hu, Hw in Hr. destruct Hr as [Ru Rw].
    apply make_wp; auto; [simpl; rewrite Hu, Hw; auto|].
    eapply wp_mono; [eapply symdiff_wp; eauto|]. intros g1 r Hx Hm'. exists (fun x => xorb (P x) (P2 x)). split.
    + intros x Hx0. simpl. rewrite <- HP, <- HP2 by auto. destruct (P x), (P2 x); simpl; split; intuition congruence.
    + eapply made_imp; [exact Hm'|..]; auto; try tauto.
  - (* Freeze *) destruct (theSet st i) as [u e] eqn:Hi. destruct (Hget _ _ _ Hi) as [Ho Hu].
    pose proof (setOk_parts _ _ _ Ho) as (Hl & Hro & _ & _ & _ & _ & _ & Hm).
    eapply wp_seq; [apply freeze_wp; auto|]. intros g1 f Hx (s & -> & Hso & Hsm). cbn [LazyFacts.wp].
    split; [intros a [<-|[]]|split].
    + simpl. intros x Hx0. rewrite (has_lookup (vok := vok)) by auto. rewrite <- Hm, <- Hsm, mem_lookup by auto.
      destruct (NodeWf.lookup (sel s) x); simpl; split; congruence.
    + apply addSet_ok; [eapply stOk_ext; eauto|]. exists (mem (sel s)). split.
      * intros x Hx0. simpl. rewrite Hsm; auto.
      * apply made_frozen; auto.
    + unfold grow. simpl. rewrite Hu, map_app. reflexivity.
  - (* Powerset *) destruct (theSet st i) as [u e] eqn:Hi. destruct (Hget _ _ _ Hi) as [Ho Hu]. rewrite Hu in Hpow.
    pose proof Ho as (P & HP & Hm). destruct Hpow as (Hc & (n & Hn & Hle) & Hb).
    pose proof Hn as (l & Hl & Hlen). apply (lists_iff l P) in Hl as (L1 & L2 & L3); auto.
    assert (HB : boxLaw (vok := vok) l).
    { apply box_law with (u := u); auto. intros x Hx. rewrite L3; auto. }
    apply make_wp; auto; [simpl; rewrite Hu; auto|].
    eapply wp_mono; [eapply powerset_wp with (l := l) (n := n); eauto; exists l; auto|].
    intros g1 r Hx Hm'. exists (mem (pset l)). split.
    + intros x Hx0. rewrite pset_mem by auto. simpl. split; intros (s & Hs1 & Hs2 & Hs3); exists s; split; auto; split; auto.
      * intros y Hy Hh. apply HP; auto. rewrite <- L3 by auto. apply Hs2; auto. apply (has_mem s y); auto using rok_ok.
      * intros y Hy Hh. rewrite L3 by auto. apply HP; auto. apply Hs2; auto. apply (has_mem s y); auto using rok_ok.
    + eapply made_imp; [exact Hm'|..]; auto; try tauto.
  - (* Has *) destruct (theSet st i) as [u e] eqn:Hi. destruct (Hget _ _ _ Hi) as [Ho Hu].
    pose proof (setOk_parts _ _ _ Ho) as (Hl & Hro & Hh & _ & _ & _ & _ & Hm).
    apply ask_wp; auto. simpl. apply wp_if; [apply has_ends; auto|]. intros h.
    eapply wp_mono; [apply has_wp; auto|]. intros g1 b _ ->. apply Hm; auto.
  - (* FastHas *) destruct (theSet st i) as [u e] eqn:Hi. destruct (Hget _ _ _ Hi) as [Ho Hu].
    pose proof (setOk_parts _ _ _ Ho) as (Hl & Hro & _ & _ & _ & Hf & _ & Hm).
    apply ask_wp; auto. simpl. apply wp_if; [apply fastHas_ends; auto|]. intros h.
    eapply wp_mono; [apply fastHas_wp; auto|]. intros g1 r _ H b Hb. rewrite (H b Hb). apply Hm; auto.
  - (* IsEmpty *) destruct (theSet st i) as [u e] eqn:Hi. destruct (Hget _ _ _ Hi) as [Ho Hu].
    pose proof (setOk_parts _ _ _ Ho) as (Hl & Hro & _ & _ & _ & _ & _ & Hm).
    apply ask_wp; auto. eapply wp_mono; [apply isEmpty_wp; auto|]. intros g1 b _ H. simpl. rewrite H.
    apply noneIn_iff; auto.
  - (* FastIsEmpty *) destruct (theSet st i) as [u e] eqn:Hi. destruct (Hget _ _ _ Hi) as [Ho Hu].
    pose proof (setOk_parts _ _ _ Ho) as (Hl & Hro & _ & _ & _ & _ & _ & Hm).
    apply ask_wp; auto. eapply wp_mono; [apply fastIsEmpty_wp; auto|]. intros g1 r _ H b Hb. rewrite (H b Hb).
    apply noneIn_iff; auto.
  - (* Count *) destruct (theSet st i) as [u e] eqn:Hi. destruct (Hget _ _ _ Hi) as [Ho Hu].
    pose proof (setOk_parts _ _ _ Ho) as (Hl & Hro & _ & _ & Hc & _ & _ & Hm).
    apply ask_wp; auto. simpl. apply wp_if; [apply count_ends; auto|]. intros h.
    destruct (card_exists (vok := vok) (dl e)) as [k Hk]; [eapply lok_allok; eauto|].
    destruct (Z.lt_ge_cases k (2 ^ 63)) as [Hlt|Hge].
    + eapply wp_mono; [apply count_wp with (k := k); auto; unfold maxInt; lia|]. intros g1 n _ -> k' Hk' _.
      apply (card_iff _ _ _ _ Ho) in Hk'. eapply cardIs_unique; eauto.
    + eapply wp_mono; [apply count_ends; auto|]. intros g1 n _ _ k' Hk' Hlt.
      apply (card_iff _ _ _ _ Ho) in Hk'. assert (k' = k) by (eapply cardIs_unique; eauto). lia.
  - (* FastCount *) destruct (theSet st i) as [u e] eqn:Hi. destruct (Hget _ _ _ Hi) as [Ho Hu].
    pose proof (setOk_parts _ _ _ Ho) as (Hl & Hro & _ & _ & _ & _ & _ & Hm).
    apply ask_wp; auto. destruct (card_exists (vok := vok) (dl e)) as [k Hk]; [eapply lok_allok; eauto|].
    eapply wp_mono; [apply fastCount_wp; eauto|]. intros g1 r _ H n Hn. rewrite (H n Hn).
    apply (card_iff _ _ _ _ Ho); auto.
  - (* CountUpTo *) destruct (theSet st i) as [u e] eqn:Hi. destruct (Hget _ _ _ Hi) as [Ho Hu].
    pose proof (setOk_parts _ _ _ Ho) as (Hl & Hro & _ & _ & Hc & _ & _ & Hm).
    apply ask_wp; auto. simpl. apply wp_if; [apply countUpTo_call_ends; auto|]. intros h.
    apply wp_if; [apply countUpTo_call_ends; auto|]. intros hl.
    destruct (card_exists (vok := vok) (dl e)) as [k Hk]; [eapply lok_allok; eauto|].
    unfold l_countUpTo. eapply wp_seq; [apply countUpTo_wp with (k := k); auto|].
    intros g1 [c|] _ [H1 H2]; [|destruct (H1 eq_refl); auto]. cbn [LazyFacts.wp]. intros k' Hk'.
    apply (card_iff _ _ _ _ Ho) in Hk'. rewrite (H2 c eq_refl). f_equal. eapply cardIs_unique; eauto.
  - (* FastCountUpTo *) destruct (theSet st i) as [u e] eqn:Hi. destruct (Hget _ _ _ Hi) as [Ho Hu].
    pose proof (setOk_parts _ _ _ Ho) as (Hl & Hro & _ & _ & Hc & _ & _ & Hm).
    assert (Hend : wp (l_fastCountUpTo e lim) (fun _ _ => True) g).
    { eapply wp_mono; [apply countUpTo_ends; auto|auto]. }
    apply ask_wp; auto. simpl. apply wp_if; auto. intros h. apply wp_if; auto. intros hl.
    destruct (card_exists (vok := vok) (dl e)) as [k Hk]; [eapply lok_allok; eauto|].
    eapply wp_mono; [apply countUpTo_wp with (k := k); auto|]. intros g1 r _ [_ H2] k' n Hk' Hn.
    apply (card_iff _ _ _ _ Ho) in Hk'. rewrite (H2 n Hn). f_equal. eapply cardIs_unique; eauto.
  - (* Equal *) destruct (theSet st i) as [u e] eqn:Hi. destruct (Hget _ _ _ Hi) as [Ho Hu].
    destruct (theSet st j) as [w t] eqn:Hj. destruct (Hget _ _ _ Hj) as [Ho2 Hw].
    pose proof (setOk_parts _ _ _ Ho) as (Hl & Hro & _ & _ & _ & _ & Hso & Hm).
    pose proof (setOk_parts _ _ _ Ho2) as (Hl2 & Hro2 & _ & Hn2 & _ & _ & _ & Hm2).
    apply ask_wp; auto. simpl. apply wp_if; [apply equal_ends; auto|]. intros h.
    apply wp_if; [apply equal_ends; auto|]. intros hs.
    eapply wp_mono; [apply equal_wp; auto|]. intros g1 b _ ->. apply same_iff; auto.
  - (* EqualSet *) destruct (theSet st i) as [u e] eqn:Hi. destruct (Hget _ _ _ Hi) as [Ho Hu].
    destruct (theSet st j) as [w t] eqn:Hj. destruct (Hget _ _ _ Hj) as [Ho2 Hw].
    pose proof (setOk_parts _ _ _ Ho) as (Hl & Hro & _ & _ & _ & _ & Hso & Hm).
    pose proof (setOk_parts _ _ _ Ho2) as (Hl2 & Hro2 & _ & Hn2 & _ & _ & _ & Hm2).
    apply ask_wp; auto. simpl. apply wp_if; [apply equalSet_ends; auto|]. intros h.
    eapply wp_mono; [apply equalSet_wp; auto|]. intros g1 b _ ->. apply same_iff; auto.
  - (* IsSubsetOf *) destruct (theSet st i) as [u e] eqn:Hi. destruct (Hget _ _ _ Hi) as [Ho Hu].
    destruct (theSet st j) as [w t] eqn:Hj. destruct (Hget _ _ _ Hj) as [Ho2 Hw].
    pose proof (setOk_parts _ _ _ Ho) as (Hl & Hro & _ & _ & _ & _ & Hso & Hm).
    pose proof (setOk_parts _ _ _ Ho2) as (Hl2 & Hro2 & _ & Hn2 & _ & _ & _ & Hm2).
    apply ask_wp; auto. simpl. apply wp_if; [apply isSubsetOf_ends; auto|]. intros h.
    eapply wp_mono; [apply isSubsetOf_wp; auto|]. intros g1 b _ ->. unfold within.
    split; intros H x Hx; specialize (H x Hx); rewrite Hm, Hm2 in * by auto; auto.
  - (* Hash *) destruct (theSet st i) as [u e] eqn:Hi. destruct (Hget _ _ _ Hi) as [Ho Hu].
    pose proof (setOk_parts _ _ _ Ho) as (Hl & Hro & _ & _ & Hc & _ & _ & Hm).
    apply ask_wp; auto. simpl. apply wp_if; [apply hash_ends; auto|]. intros h.
    eapply wp_mono; [apply hash_wp; auto|]. intros g1 n _ (l & L1 & L2 & L3 & L4). exists l. split; auto.
    apply (lists_iff l (mem (dl e))); auto.
  - (* Range *) destruct (theSet st i) as [u e] eqn:Hi. destruct (Hget _ _ _ Hi) as [Ho Hu].
    pose proof (setOk_parts _ _ _ Ho) as (Hl & Hro & _ & Hn & _ & _ & _ & Hm).
    eapply wp_seq; [apply range_wp; auto|]. intros g1 it Hx (H1 & H2 & _ & _ & H5 & _). cbn [LazyFacts.wp].
    split; [intros a []|]. split; [|reflexivity]. pose proof (stOk_ext _ _ _ Hx Hs) as [S1 S2]. split; [exact S1|].
    intros k Hk. simpl in Hk. apply in_app_iff in Hk as [Hk|[<-|[]]]; auto. simpl. split; auto.
    split; [intros y []|]. split; [intros x Hx0; rewrite H2; auto|]. intros h. split; auto. split; [constructor|intros y []].
  - (* Next *) destruct (nth_error (g_iters st) k) as [[[u given] [it|]]|] eqn:Hk.
    + destruct (proj2 Hs _ (nth_error_In _ _ Hk)) as (H1 & H2 & H3 & H4).
      eapply wp_seq; [apply next_wp; auto|]. intros g1 [[|] it'] Hx; cbn [LazyFacts.nextPost].
      * intros (v & E1 & Hv & I1 & I2 & _ & _ & _ & I3). apply wp_lift_bind with (a := v); auto. cbn [LazyFacts.wp].
        assert (Hmv : Member u v). { apply H3; auto. rewrite I2, veq_refl by auto. apply orb_true_r. }
        split; [intros a [<-|[]]; simpl; auto|]. split; [|reflexivity].
        pose proof (stOk_ext _ _ _ Hx Hs) as [S1 S2]. split; [exact S1|]. simpl. intros k' Hk'.
        apply In_set_nth in Hk' as [->|Hk']; auto. simpl. split; auto. split; [|split].
        -- intros y Hy. apply in_app_iff in Hy as [Hy|[<-|[]]]; auto.
        -- intros x Hx0. rewrite <- H3, mem_app, I2 by auto. simpl. rewrite orb_false_r, orb_assoc. tauto.
        -- intros h. destruct (H4 h) as (D1 & D2 & D3). destruct (I3 D1) as [D1' D4]. split; auto. split.
           ++ apply distinct_snoc; auto. intros y Hy. specialize (D3 y Hy). rewrite I2 in D3 by auto.
              apply orb_false_iff in D3 as [D3 _]. rewrite (veq_comm (vok := vok)); auto.
           ++ intros y Hy. apply in_app_iff in Hy as [Hy|[<-|[]]]; auto. specialize (D3 y Hy). rewrite I2 in D3 by auto.
              apply orb_false_iff in D3 as [_ D3]. auto.
      * intros [I1 _]. cbn [LazyFacts.wp]. split; [intros a [<-|[]]; simpl; split|].
        -- intros x Hx0. rewrite <- H3, I1, orb_false_r by auto. apply mem_true.
        -- intros h. destruct (H4 h) as (D1 & D2 & D3). apply (lists_iff given (mem given)); auto.
           intros x Hx0. rewrite <- H3, I1, orb_false_r by auto. tauto.
        -- split; [|reflexivity]. pose proof (stOk_ext _ _ _ Hx Hs) as [S1 S2]. split; [exact S1|]. simpl. intros k' Hk'.
           apply In_set_nth in Hk' as [->|Hk']; auto.
    + cbn [LazyFacts.wp]. split; [intros a []|]. split; auto.
    + cbn [LazyFacts.wp]. split; [intros a []|]. split; auto.
Qed.

Definition scriptPost (g : ghost) (r : list (answer T) * gst) : Prop :=
  (forall a, In a (fst r) -> Right vok a) /\ stOk g (snd r).

Lemma runScript_wp cs : forall st g, stOk g st -> ScriptOk vok (map fst (g_sets st)) cs ->
  wp (runScript cs st) (fun g r => scriptPost g r /\
    map fst (g_sets (snd r)) = fold_left grow cs (map fst (g_sets st))) g.
Proof.
  induction cs as [|c cs IH]; intros st g Hs Hok; cbn [runScript].
  - cbn [LazyFacts.wp]. split; auto. split; auto. intros a [].
  - destruct Hok as (Ha & Hr & Hp & Hok). eapply wp_seq; [apply runCall_wp; auto|].
    intros g1 [a1 st1] Hx (H1 & H2 & H3). cbn [fst snd] in *. rewrite <- H3 in Hok.
    eapply wp_seq; [apply IH; auto|]. intros g2 [a2 st2] Hx2 [[H4 H5] H6]. cbn [LazyFacts.wp fst snd] in *.
    split; [|rewrite H6, H3; reflexivity]. split; auto. cbn [fst]. intros a Hi. apply in_app_iff in Hi as [Hi|Hi]; auto.
Qed.

Lemma session_pool setup scripts sched : SessionOk vok setup scripts ->
  exists st h G s G', exec (runScript setup (mkG [] [])) [] = Ok (st, h) /\
    poolOk (vok := vok) (map (fun _ => scriptPost) scripts)
      (map (fun cs => runScript cs (mkG (g_sets (snd st)) [])) scripts, h) G /\
    session setup scripts sched = Ok s /\ ext G G' /\
    s = poolRun sched (map (fun cs => runScript cs (mkG (g_sets (snd st)) [])) scripts, h) /\
    poolOk (vok := vok) (map (fun _ => scriptPost) scripts) s G' /\ stOk G' (mkG (g_sets (snd st)) []).
Proof.
  intros [Hset Hscr].
  assert (H0 : stOk [] (mkG [] [])) by (split; intros ? []).
  pose proof (runScript_wp setup (mkG [] []) [] H0 Hset) as Hw.
  destruct (exec_ok (vok := vok) _ _ _ [] [] Hw (ext_refl _) heapOk_nil) as ((ans & st) & h & G & Ex & _ & Hh & g' & Hg & Hp).
  cbn [fst snd] in Hp. destruct Hp as ([_ Hst] & Hus).
  assert (HstG : stOk G (mkG (g_sets st) [])).
  { split; [|intros ? []]. intros ue Hi. eapply setOk_ext; [exact Hg|]. apply (proj1 Hst); auto. }
  assert (Hpool : poolOk (vok := vok) (map (fun _ => scriptPost) scripts)
      (map (fun cs => runScript cs (mkG (g_sets st) [])) scripts, h) G).
  { split; auto. cbn [fst]. clear - HstG Hscr Hus HE KO. induction scripts as [|cs scripts IH]; constructor.
    - exists G. split; [apply ext_refl|]. eapply wp_mono; [apply runScript_wp; auto|].
      + simpl. rewrite Hus. apply Hscr. left; auto.
      + intros g1 r _ [Hr _]. exact Hr.
    - apply IH. intros cs' Hi. apply Hscr. right; auto. }
  destruct (poolRun_ok (vok := vok) _ sched _ _ Hpool) as (G' & Hx & Hok).
  eexists (ans, st), h, G, _, G'. split; [exact Ex|]. split; [exact Hpool|]. split; [|split; [exact Hx|split; [reflexivity|split; [exact Hok|]]]].
  - unfold session. rewrite Ex. reflexivity.
  - eapply stOk_ext; eauto.
Qed.

End SpecLazy.

Section LazyProps.
Context {E : Env} {HE : EnvOk E} {T : Type} {K : Key T} {vok : T -> Prop} {KO : KeyOk K vok} {B : Boxes T}.

(** Goroutine [i] ended having seen the answer [a]. *)
Definition Saw (setup : list (call T)) (scripts : list (list (call T))) (sched : list nat) (i : nat) (a : answer T) : Prop :=
  exists ths h ans st, session setup scripts sched = Ok (ths, h) /\ nth_error ths i = Some (Ret (ans, st)) /\ In a ans.

Lemma saw_right setup scripts sched i a : SessionOk vok setup scripts -> Saw setup scripts sched i a -> Right vok a.
Proof.
  intros Hok (ths & h & ans & st & Es & Hi & Ha).
  destruct (session_pool setup scripts sched Hok) as (st0 & h0 & G & s & G' & _ & _ & Es' & _ & _ & Hp & _).
  rewrite Es in Es'. injection Es' as <-.
  destruct (poolOk_thread _ _ _ i _ Hp Hi) as (_ & _ & Hr & _). destruct (Hr _ eq_refl) as (Q & g & HQ & Hx & HQa).
  rewrite nth_error_map in HQ. destruct (nth_error scripts i); [|discriminate]. injection HQ as <-. apply HQa; auto.
Qed.

(** ** C35 *)

Lemma c35_has setup scripts sched i u x b : SessionOk vok setup scripts -> Saw setup scripts sched i (AHas u x b) ->
  HasFine u -> (b = true <-> Member vok u x).
Proof. intros H1 H2. exact (saw_right _ _ _ _ _ H1 H2). Qed.

Lemma c35_fastHas setup scripts sched i u x b : SessionOk vok setup scripts ->
  Saw setup scripts sched i (AFastHas u x (Some b)) -> FastFine u -> (b = true <-> Member vok u x).
Proof. intros H1 H2 H3. exact (saw_right _ _ _ _ _ H1 H2 H3 b eq_refl). Qed.

(** ** C36 *)

(** Every value an iterator gives is an element of the set. *)
Lemma c36_value setup scripts sched i u v : SessionOk vok setup scripts -> Saw setup scripts sched i (AValue u v) ->
  vok v /\ Member vok u v.
Proof. intros H1 H2. exact (saw_right _ _ _ _ _ H1 H2). Qed.

(** When the iterator reports its end, it has given every element. *)
Lemma c36_all setup scripts sched i u l : SessionOk vok setup scripts -> Saw setup scripts sched i (ADone u l) ->
  forall x, vok x -> (Member vok u x <-> exists e, In e l /\ veq e x = true).
Proof. intros H1 H2. exact (proj1 (saw_right _ _ _ _ _ H1 H2)). Qed.

(** And each once. *)
Lemma c36_once setup scripts sched i u l : SessionOk vok setup scripts -> Saw setup scripts sched i (ADone u l) ->
  OnceFine vok u -> Lists vok l (Member vok u).
Proof. intros H1 H2. exact (proj2 (saw_right _ _ _ _ _ H1 H2)). Qed.

Lemma c36_freeze setup scripts sched i u s : SessionOk vok setup scripts -> Saw setup scripts sched i (AFreeze u s) ->
  forall x, vok x -> (Has s x <-> Member vok u x).
Proof. intros H1 H2. exact (saw_right _ _ _ _ _ H1 H2). Qed.

(** ** C37 *)

Lemma c37_isEmpty setup scripts sched i u b : SessionOk vok setup scripts -> Saw setup scripts sched i (AIsEmpty u b) ->
  (b = true <-> forall x, vok x -> ~ Member vok u x).
Proof. intros H1 H2. exact (saw_right _ _ _ _ _ H1 H2). Qed.

Lemma c37_fastIsEmpty setup scripts sched i u b : SessionOk vok setup scripts ->
  Saw setup scripts sched i (AFastIsEmpty u (Some b)) -> (b = true <-> forall x, vok x -> ~ Member vok u x).
Proof. intros H1 H2. exact (saw_right _ _ _ _ _ H1 H2 b eq_refl). Qed.

Lemma c37_count setup scripts sched i u n : SessionOk vok setup scripts -> Saw setup scripts sched i (ACount u n) ->
  CountFine vok u -> forall k, Card vok u k -> k < 2 ^ 63 -> n = k.
Proof. intros H1 H2. exact (saw_right _ _ _ _ _ H1 H2). Qed.

Lemma c37_fastCount setup scripts sched i u n : SessionOk vok setup scripts ->
  Saw setup scripts sched i (AFastCount u (Some n)) -> Card vok u n.
Proof. intros H1 H2. exact (saw_right _ _ _ _ _ H1 H2 n eq_refl). Qed.

Lemma c37_countUpTo setup scripts sched i u limit n : SessionOk vok setup scripts ->
  Saw setup scripts sched i (ACountUpTo u limit n) -> CountFine vok u -> 0 <= limit ->
  forall k, Card vok u k -> n = Z.min limit k.
Proof. intros H1 H2. exact (saw_right _ _ _ _ _ H1 H2). Qed.

Lemma c37_fastCountUpTo setup scripts sched i u limit n : SessionOk vok setup scripts ->
  Saw setup scripts sched i (AFastCountUpTo u limit (Some n)) -> CountFine vok u -> 0 <= limit ->
  forall k, Card vok u k -> n = Z.min limit k.
Proof. intros H1 H2 H3 H4 k Hk. exact (saw_right _ _ _ _ _ H1 H2 H3 H4 k n Hk eq_refl). Qed.

(** ** C38 *)

Lemma c38_equalSet setup scripts sched i u w b : SessionOk vok setup scripts ->
  Saw setup scripts sched i (AEqualSet u w b) -> OnceFine vok w ->
  (b = true <-> forall x, vok x -> (Member vok u x <-> Member vok w x)).
Proof. intros H1 H2. exact (saw_right _ _ _ _ _ H1 H2). Qed.

Lemma c38_equal setup scripts sched i u w b : SessionOk vok setup scripts ->
  Saw setup scripts sched i (AEqual u w b) -> OnceFine vok w -> Solid u ->
  (b = true <-> forall x, vok x -> (Member vok u x <-> Member vok w x)).
Proof. intros H1 H2. exact (saw_right _ _ _ _ _ H1 H2). Qed.

Lemma c38_isSubsetOf setup scripts sched i u w b : SessionOk vok setup scripts ->
  Saw setup scripts sched i (ASubset u w b) -> OnceFine vok w ->
  (b = true <-> forall x, vok x -> Member vok u x -> Member vok w x).
Proof. intros H1 H2. exact (saw_right _ _ _ _ _ H1 H2). Qed.

(** The hash combines the hashes of the elements, in some order. *)
Lemma c38_hash setup scripts sched i u seed h : SessionOk vok setup scripts ->
  Saw setup scripts sched i (AHash u seed h) -> CountFine vok u ->
  exists l, Lists vok l (Member vok u) /\ h = fold_left (fun h v => vhash v h) l (env_uintptr hashSeed seed).
Proof. intros H1 H2. exact (saw_right _ _ _ _ _ H1 H2). Qed.

(** So equal sets of at most one element have the same hash. *)
Lemma c38_hash_small setup scripts sched i j u w seed h k n : SessionOk vok setup scripts ->
  Saw setup scripts sched i (AHash u seed h) -> Saw setup scripts sched j (AHash w seed k) ->
  CountFine vok u -> CountFine vok w -> (forall x, vok x -> (Member vok u x <-> Member vok w x)) ->
  Card vok u n -> n <= 1 -> h = k.
Proof.
  intros Hok Hu Hw Fu Fw Heq (l0 & L0 & ->) Hn.
  destruct (c38_hash _ _ _ _ _ _ _ Hok Hu Fu) as (l1 & L1 & ->).
  destruct (c38_hash _ _ _ _ _ _ _ Hok Hw Fw) as (l2 & L2 & ->).
  assert (Hlen : forall l, Lists vok l (Member vok u) -> (length l <= 1)%nat).
  { intros l (A1 & A2 & A3). destruct l as [|a [|b l]]; simpl; try lia. exfalso.
    destruct L0 as (B1 & B2 & B3).
    assert (Ha : Member vok u a) by (apply A3; [apply A1; left; auto|]; exists a; split; [left; auto|]; apply (veq_refl (vok := vok)); apply A1; left; auto).
    assert (Hb : Member vok u b) by (apply A3; [apply A1; right; left; auto|]; exists b; split; [right; left; auto|]; apply (veq_refl (vok := vok)); apply A1; right; left; auto).
    apply B3 in Ha as (ea & Ia & Ea); [|apply A1; left; auto]. apply B3 in Hb as (eb & Ib & Eb); [|apply A1; right; left; auto].
    assert (Hab : veq a b = false) by (apply (A2 0%nat 1%nat); auto).
    destruct l0 as [|e [|e' l0]]; simpl in *; try lia; try contradiction.
    destruct Ia as [<-|[]]. destruct Ib as [<-|[]].
    assert (veq a b = true); [|congruence]. apply (veq_trans (vok := vok)) with (b := e); auto.
    rewrite (veq_comm (vok := vok)); auto. }
  assert (L2' : Lists vok l2 (Member vok u)).
  { destruct L2 as (A1 & A2 & A3). split; auto. split; auto. intros x Hx. rewrite Heq; auto. }
  pose proof (Hlen _ L1) as N1. pose proof (Hlen _ L2') as N2.
  destruct L1 as (A1 & _ & A3). destruct L2' as (B1 & _ & B3).
  destruct l1 as [|a [|? ?]]; simpl in N1; try lia; destruct l2 as [|b [|? ?]]; simpl in N2; try lia; auto.
  - exfalso. assert (Hb : vok b) by (apply B1; left; auto).
    assert (M : Member vok u b) by (apply B3; auto; exists b; split; [left; auto|]; apply (veq_refl (vok := vok)); auto).
    apply A3 in M as (? & [] & _); auto.
  - exfalso. assert (Ha : vok a) by (apply A1; left; auto).
    assert (M : Member vok u a) by (apply A3; auto; exists a; split; [left; auto|]; apply (veq_refl (vok := vok)); auto).
    apply B3 in M as (? & [] & _); auto.
  - simpl. assert (Ha : vok a) by (apply A1; left; auto). assert (Hb : vok b) by (apply B1; left; auto).
    assert (M : Member vok u b) by (apply B3; auto; exists b; split; [left; auto|]; apply (veq_refl (vok := vok)); auto).
    apply A3 in M as (e & [<-|[]] & E1); auto. apply (vhash_compat (vok := vok)); auto.
Qed.

(** ** C39 *)

(** Under every schedule: no goroutine panics, none runs out of fuel, and each has ended or can go on. *)
Lemma c39_runs setup scripts sched : SessionOk vok setup scripts ->
  exists ths h, session setup scripts sched = Ok (ths, h) /\ length ths = length scripts /\
    forall i m, nth_error ths i = Some m ->
      m <> PPanic /\ m <> PFuel /\ ((exists r, m = Ret r) \/ exists m' h', pstep m h = Some (m', h')).
Proof.
  intros Hok. destruct (session_pool setup scripts sched Hok) as (st0 & h0 & G & s & G' & _ & Hp0 & Es & _ & Hs & Hp & _).
  destruct s as [ths h]. exists ths, h. split; auto. split.
  - destruct Hp as [_ Hf]. cbn [fst] in Hf. rewrite <- (map_length (fun _ => scriptPost (vok := vok)) scripts).
    clear - Hf. revert Hf. generalize (map (fun _ : list (call T) => scriptPost (vok := vok)) scripts). intros Qs Hf. induction Hf; simpl; auto.
  - intros i m Hi. destruct (poolOk_thread _ _ _ i _ Hp Hi) as (H1 & H2 & _ & H4). split; auto. split; auto.
    destruct m; try (right; apply H4; discriminate). eauto.
Qed.

(** A goroutine that is scheduled again and again ends. *)
Lemma c39_ends setup scripts (sched : nat -> nat) i : SessionOk vok setup scripts -> (i < length scripts)%nat ->
  (forall n, exists k, (n <= k)%nat /\ sched k = i) ->
  exists n ths h ans st, session setup scripts (map sched (seq 0 n)) = Ok (ths, h) /\
    nth_error ths i = Some (Ret (ans, st)).
Proof.
  intros Hok Hi Hfair.
  destruct (session_pool setup scripts [] Hok) as (st0 & h0 & G & s & G' & Ex & Hp0 & _).
  destruct (nth_error scripts i) as [cs|] eqn:Hcs; [|apply nth_error_None in Hcs; lia].
  destruct (fair_end (vok := vok) _ _ G sched i Hp0 Hfair (runScript cs (mkG (g_sets (snd st0)) [])) 0) as (n & [ans st] & _ & Hn).
  { simpl. rewrite nth_error_map, Hcs. reflexivity. }
  exists n. unfold session. rewrite Ex. destruct st0 as [ans0 st0]. cbn [bind fst snd] in *.
  destruct (poolRun (map sched (seq 0 n)) (map (fun cs => runScript cs (mkG (g_sets st0) [])) scripts, h0)) as [ths h] eqn:Er.
  unfold prefix in Hn. rewrite Er in Hn. exists ths, h, ans, st. auto.
Qed.

(** What a memoised set points to, at any moment: its source, or a frozen copy with the elements of the set. *)
Lemma c39_complete setup scripts sched ths h i ans st u p src : SessionOk vok setup scripts ->
  session setup scripts sched = Ok (ths, h) -> nth_error ths i = Some (Ret (ans, st)) ->
  In (u, LMemo p src) (g_sets st) ->
  exists o, nth_error h p = Some o /\ forall f, o = Some f -> forall x, vok x -> (Has f x <-> Member vok u x).
Proof.
  intros Hok Es Hi Hu.
  destruct (session_pool setup scripts sched Hok) as (st0 & h0 & G & s & G' & _ & _ & Es' & _ & _ & Hp & _).
  rewrite Es in Es'. injection Es' as <-.
  destruct (poolOk_thread _ _ _ i _ Hp Hi) as (_ & _ & Hr & _). destruct (Hr _ eq_refl) as (Q & g & HQ & Hx & HQa).
  rewrite nth_error_map in HQ. destruct (nth_error scripts i); [|discriminate]. injection HQ as <-.
  destruct HQa as [_ [Hs _]]. specialize (Hs _ Hu). pose proof (setOk_ext _ _ _ Hx Hs) as Hs'.
  apply setOk_parts in Hs' as (Hl & _ & _ & _ & _ & _ & _ & Hm).
  destruct (cell_complete (vok := vok) h G' p src (proj1 Hp) Hl) as (o & Ho & Hc). exists o. split; auto.
  intros f Hf x Hx0. destruct (Hc f Hf) as [Hfo Hfm]. rewrite (has_lookup (vok := vok)) by auto.
  rewrite <- Hm by auto. simpl. rewrite <- Hfm, mem_lookup by auto.
  destruct (NodeWf.lookup (sel f) x); simpl; split; congruence.
Qed.

(** A stored copy stays, and never changes contents. *)
Lemma c39_stable setup scripts sched1 sched2 ths1 h1 ths2 h2 p f : SessionOk vok setup scripts ->
  session setup scripts sched1 = Ok (ths1, h1) -> session setup scripts (sched1 ++ sched2) = Ok (ths2, h2) ->
  nth_error h1 p = Some (Some f) ->
  exists f', nth_error h2 p = Some (Some f') /\ SameMembers vok f f'.
Proof.
  intros Hok E1 E2 Hp.
  destruct (session_pool setup scripts sched1 Hok) as (st0 & h0 & G & s & G1 & Ex & _ & Es' & _ & Hs & Hp1 & _).
  rewrite E1 in Es'. injection Es' as <-.
  destruct (poolRun_ok (vok := vok) _ sched2 _ _ Hp1) as (G2 & Hx & Hp2).
  assert (Hs2 : poolRun sched2 (ths1, h1) = (ths2, h2)).
  { rewrite Hs, <- poolRun_app. unfold session in E2. rewrite Ex in E2. destruct st0. cbn [bind snd] in *.
    injection E2 as E2. auto. }
  rewrite Hs2 in Hp2.
  destruct (cells_stable (vok := vok) h1 h2 G1 G2 p f (proj1 Hp1) (proj1 Hp2) Hx Hp) as (f' & Hf' & S1 & S2 & Hm).
  exists f'. split; auto. intros x Hx0. rewrite !(has_lookup (vok := vok)) by auto. specialize (Hm x Hx0).
  rewrite !mem_lookup in Hm. destruct (NodeWf.lookup (sel f) x), (NodeWf.lookup (sel f') x); simpl in Hm;
    split; congruence.
Qed.

End LazyProps.
