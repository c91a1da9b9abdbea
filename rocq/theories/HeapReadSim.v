(** * HeapReadSim: programs that ask questions and keep iterators get the same answers on the heap as on values. *)
From Verif Require Import Base Bits Env EnvFacts Node NodeWf Iter Tree TreeFacts.
From Verif Require Import HeapModel HeapFrame HeapOwn HeapRep HeapSim HeapSim2 HeapProg HeapProgSim HeapRead.
Local Open Scope nat_scope.

Section ReadSim.
Context {E : Env} {EO : EnvOk E} {T : Type} {K : Key T} {vok : T -> Prop} {KO : KeyOk K vok} (grow : nat -> nat -> nat).
Notation heap := (heap (T := T)).
Notation tree := (tree T).
Notation cmdOk := (cmdOk (vok := vok)).
Notation setRel := (setRel (vok := vok)).
Notation related := (related (vok := vok)).
Local Opaque maxTreeDepth fanout fb.

(** What a command does to the memory of the sets that exist: nothing that they can see. *)
Lemma step_memory (st : state) ps c : related st ps -> cmdOk c -> h_over (st_heap (step grow st c)) = h_over (st_heap st) ->
  kept (st_heap st) (st_heap (step grow st c)) \/ forall t, In t (st_sets st) -> stable (st_heap st) (st_heap (step grow st c)) t.
Proof.
  intros (Hi & Hs & Hb) Hok Hov. destruct (quietCmd c) eqn:Hq; [right; intros t Ht; apply quiet_step; auto|]. left.
  destruct c as [|b v|b v|b|s v|s v|f s u|s u|s u|pred s]; try discriminate; cbn [step] in *.
  - destruct (nth_error (st_sets st) s) as [t|] eqn:Es; [|apply kept_refl].
    destruct (all2_nth _ _ _ _ _ Hs Es) as (w & Ew & Hw). rewrite makeSet_heap in *.
    apply (sim_tH_with (vok := vok) grow (st_heap st) t w v Hw Hov).
  - destruct (nth_error (st_sets st) s) as [t|] eqn:Es; [|apply kept_refl].
    destruct (nth_error (st_sets st) u) as [t'|] eqn:Eu; [|apply kept_refl].
    destruct (all2_nth _ _ _ _ _ Hs Es) as (w & Ew & Hw). destruct (all2_nth _ _ _ _ _ Hs Eu) as (w' & Ew' & Hw').
    rewrite makeSet_heap in *. apply (sim_tH_combine (vok := vok) grow (st_heap st) _ t w t' w' Hw Hw'). exact Hov.
Qed.

(** The elements that an iterator can yield are valid. *)
Fixpoint ivok (it : iter T) : Prop :=
  match it with
  | IEmpty => True
  | ISlice l _ => Forall vok l
  | IPacker p i => Forall vok (flat_map elemso p) /\ ivok i
  end.
Lemma ivok_iterator n : Forall vok (elems n) -> ivok (iterator n).
Proof. intros H. destruct n as [a|a b|l|m d]; cbn [iterator ivok]; auto. rewrite elems_branch in H. split; auto. Qed.
Lemma nextChild_vok p : Forall vok (flat_map elemso p) ->
  match nextChild p with Some (c, p') => Forall vok (elems c) /\ Forall vok (flat_map elemso p') | None => True end.
Proof.
  induction p as [|[c|] p IH]; intros H; cbn [nextChild flat_map] in *; [exact Logic.I| |exact (IH H)].
  apply Forall_app in H as [H1 H2]. destruct (isEmpty c); [exact (IH H2)|auto].
Qed.
Lemma inext_vok fuel : forall it b it', inext fuel it = Ok (b, it') -> ivok it -> ivok it'.
Proof.
  induction fuel as [|k IH]; intros it b it' H Hv; [discriminate|]. destruct it as [|l i|p i]; cbn [inext ivok] in *.
  - injection H as <- <-. exact Logic.I.
  - injection H as <- <-. exact Hv.
  - destruct Hv as [Hp Hi]. destruct (inext k i) as [[b1 i1]| |] eqn:E1; try discriminate. cbn [bind] in H.
    pose proof (IH _ _ _ E1 Hi) as Hi1. destruct b1; [injection H as <- <-; cbn; auto|].
    pose proof (nextChild_vok p Hp) as Hc. destruct (nextChild p) as [[c p']|]; [|injection H as <- <-; cbn; auto].
    destruct Hc as [Hc Hp']. destruct (inext k (iterator c)) as [[b2 i2]| |] eqn:E2; try discriminate. cbn [bind] in H.
    injection H as <- <-. cbn. split; auto. eapply IH; eauto. apply ivok_iterator. auto.
Qed.
Lemma ivalue_vok it v : ivok it -> ivalue it = Ok v -> vok v.
Proof.
  induction it as [|l k|p i IH]; cbn; [discriminate| |intros []; auto].
  destruct k as [|k]; [discriminate|]. destruct (nth_error l k) as [x|] eqn:Ex; [|discriminate]. intros H [= <-].
  eapply Forall_forall; eauto. eapply nth_error_In; eauto.
Qed.
Lemma get_in fuel : forall (n : node T) v hs e, get fuel n v hs = Ok (Some e) -> In e (elems n).
Proof.
  induction fuel as [|k IH]; intros n v hs e H; [discriminate|]. destruct n as [a|a b|l|m d]; cbn [get] in H.
  - destruct (veq a v); [|discriminate]. injection H as <-. cbn. auto.
  - destruct (veq a v); [injection H as <-; cbn; auto|]. destruct (veq b v); [|discriminate]. injection H as <-. cbn. auto.
  - injection H as H. apply find_some in H as [H _]. exact H.
  - unfold child in H. destruct (nth _ d None) as [c|] eqn:Ec; [|discriminate]. rewrite elems_branch. apply in_flat_map. exists (Some c).
    split; [|eapply IH; eauto]. rewrite <- Ec. apply nth_In. destruct (Nat.lt_ge_cases (h_hash hs) (length d)) as [Hl|Hl]; auto.
    rewrite nth_overflow in Ec by auto. discriminate.
Qed.

(** The iterators of the program and the iterators on values. *)
Definition iterRel (st : state) (it : hiter (T := T)) (it' : iter T) : Prop :=
  ivok it' /\ irep (st_heap st) it it' /\ (it = HEmpty \/ exists t, In t (st_sets st) /\ belongs (st_heap st) t it).
Definition readRel (st : state) (its : list hiter) (ps : pstate) (its' : list (iter T)) : Prop :=
  related st ps /\ all2 (iterRel st) its its'.

Lemma readRel_initial : readRel initial [] pinitial [].
Proof. split; [apply related_initial|apply all2_nil]. Qed.

Lemma readRel_step st its ps its' c : readRel st its ps its' -> cmdOk c -> h_over (st_heap (step grow st c)) = h_over (st_heap st) ->
  readRel (step grow st c) its (pstep ps c) its'.
Proof.
  intros [Hr Hi] Hok Hov. split; [apply related_step; auto|]. destruct (step_sets grow st c) as [l Hl].
  pose proof (step_memory st ps c Hr Hok Hov) as Hm. eapply all2_imp; [exact Hi|]. intros i it it' _ (Hv & H1 & H2). split; auto.
  destruct H2 as [->|(t & Ht & Hb)]; [inversion H1; subst; split; [constructor|auto]|].
  assert (Ht' : In t (st_sets (step grow st c))) by (rewrite Hl; apply in_or_app; auto).
  destruct Hm as [Hk|Hst].
  - split; [eapply irep_kept; eauto|]. right. exists t. split; auto. eapply belongs_kept; eauto.
  - split; [eapply irep_stable; eauto|]. right. exists t. split; auto. eapply belongs_stable; eauto.
Qed.

Lemma all2_nthd {A B} (Rel : A -> B -> Prop) l l' i a b : all2 Rel l l' -> Rel a b -> Rel (nth i l a) (nth i l' b).
Proof.
  intros H H0. destruct (nth_error l i) as [x|] eqn:Ex.
  - destruct (all2_nth _ _ _ _ _ H Ex) as (y & Ey & Hxy). rewrite (nth_error_nth _ _ _ Ex), (nth_error_nth _ _ _ Ey). auto.
  - assert (Hn := proj1 (nth_error_None l i) Ex). destruct H as [Hl _]. rewrite (nth_overflow l), (nth_overflow l') by lia. auto.
Qed.

Lemma set_no st ps i : related st ps -> setRel (st_heap st) (setNo st i) (nth i (ps_sets ps) emptyTree).
Proof.
  intros (_ & Hs & _). apply all2_nthd; auto. split; [constructor|]. split; auto. apply tok_empty.
Qed.
Lemma iter_no st its its' i : all2 (iterRel st) its its' -> iterRel st (iterNo its i) (nth i its' IEmpty).
Proof. intros H. apply all2_nthd; auto. split; [exact Logic.I|]. split; [constructor|auto]. Qed.
Lemma set_no_in (st : state (T := T)) i p : pt_root (setNo st i) = Some p -> In (setNo st i) (st_sets st).
Proof.
  unfold setNo. intros H. destruct (Nat.lt_ge_cases i (length (st_sets st))) as [Hl|Hl]; [apply nth_In; auto|].
  rewrite nth_overflow in H by auto. discriminate.
Qed.

Lemma set_nth_over {A} (l : list A) i x : length l <= i -> set_nth l i x = l.
Proof. revert i. induction l as [|a l IH]; intros [|i] H; cbn in *; auto; [lia|]. rewrite IH; auto. lia. Qed.

Local Ltac same := split; [auto|split; [auto|split; [try exact Logic.I|split; auto]]].
Lemma tok_vok u : tok vok u -> Forall vok (tel u).
Proof.
  intros [H _]. apply Forall_forall. unfold tel. destruct (t_root u) as [n|]; [|intros x []]. intros x Hx. eapply wf_allok; eauto.
Qed.
(** Every question has the same answer. *)
Lemma readRel_answer {B} (q : ask (T := T) B) st its ps its' : readRel st its ps its' ->
  let '(b, h', jts) := answerH q st its in let '(b', jts') := answerP q ps its' in
  b = b' /\ h' = st_heap st /\ validAnswer vok q b /\ readRel st jts ps jts'.
Proof.
  intros [Hr Hi]. destruct q as [i v|i|eq i j|i j|i|i|i]; unfold answerH, answerP.
  - destruct (set_no st ps i Hr) as (H1 & _ & Hu). pose proof (tok_vok _ Hu) as Hv. unfold tH_get, t_get, tel in *.
    destruct H1 as [|p n H1]; [cbn; same; discriminate|]. rewrite (getH_rep _ _ _ _ _ _ H1). same.
    cbn. intros e He. apply get_in in He. eapply Forall_forall; eauto.
  - destruct (set_no st ps i Hr) as (_ & H2 & _). same.
  - destruct (set_no st ps i Hr) as (H1 & H2 & _). destruct (set_no st ps j Hr) as (H3 & H4 & _).
    assert (HE : tH_equal (newGauge (pt_count (setNo st i))) eq (setNo st i) (setNo st j) (st_heap st) =
      (t_equal (t_gauge (nth i (ps_sets ps) emptyTree)) eq (nth i (ps_sets ps) emptyTree) (nth j (ps_sets ps) emptyTree), st_heap st)).
    { unfold tH_equal, t_equal, t_gauge. rewrite H2, H4. destruct (negb _); [reflexivity|]. destruct (_ && _)%bool; [reflexivity|].
      destruct H1 as [|p n H1]; [reflexivity|]. destruct H3 as [|p2 n2 H3]; [reflexivity|]. apply equalH_rep; auto. }
    cbv zeta. rewrite HE. same.
  - destruct (set_no st ps i Hr) as (H1 & H2 & _). destruct (set_no st ps j Hr) as (H3 & H4 & _).
    assert (HE : tH_subsetOf (newGauge (pt_count (setNo st i))) (setNo st i) (setNo st j) (st_heap st) =
      (t_subsetOf (t_gauge (nth i (ps_sets ps) emptyTree)) (nth i (ps_sets ps) emptyTree) (nth j (ps_sets ps) emptyTree), st_heap st)).
    { unfold tH_subsetOf, t_subsetOf, t_gauge. rewrite H2.
      destruct H1 as [|p n H1]; [reflexivity|]. destruct H3 as [|p2 n2 H3]; [reflexivity|]. apply subsetOfH_rep; auto. }
    cbv zeta. rewrite HE. same.
  - destruct (set_no st ps i Hr) as (H1 & _ & Hu). pose proof (tok_vok _ Hu) as Hv. unfold tH_iterator, t_iterator, tel in *.
    destruct (pt_root (setNo st i)) as [p|] eqn:Ep.
    + inversion H1 as [|p0 n Hn E1 E2]; subst. rewrite <- E2 in Hv. destruct (iteratorH_rep (st_heap st) p n Hn) as (it & Hit & Hrep). rewrite Hit.
      split; [f_equal; apply Hi|]. split; auto. split; [exact Logic.I|]. split; auto. apply all2_snoc; auto.
      split; [apply ivok_iterator; auto|]. split; auto. right. exists (setNo st i).
      split; [eapply set_no_in; eauto|]. eapply belongs_iteratorH; eauto.
    + inversion H1; subst. cbn. split; [f_equal; apply Hi|]. split; auto. split; [exact Logic.I|]. split; auto. apply all2_snoc; auto.
      split; [exact Logic.I|]. split; [constructor|auto].
  - destruct (iter_no st its its' i Hi) as (Hv & H1 & H2). pose proof (nextH_rep (S treeFuel) _ _ _ H1) as H3.
    pose proof (inext_vok (S treeFuel) (nth i its' IEmpty)) as H4.
    destruct (inext (S treeFuel) (nth i its' IEmpty)) as [[b j']| |].
    + destruct H3 as (j & H3 & H5). rewrite H3. split; auto. split; auto. split; [exact Logic.I|]. split; auto. eapply all2_set; [exact Hi| |auto].
      split; [eapply H4; eauto|]. split; auto.
      destruct H2 as [H2|(t & Ht & Hb)].
      * left. rewrite H2 in H3. cbn [nextH] in H3. unfold ret in H3. congruence.
      * right. exists t. split; auto. eapply belongs_nextH; [exact Hb|]. rewrite H3. reflexivity.
    + rewrite H3. same.
    + rewrite H3. same.
  - destruct (iter_no st its its' i Hi) as (Hv & H1 & _). rewrite (valueH_rep _ _ _ H1). same.
    cbn. intros v. apply ivalue_vok. auto.
Qed.

Lemma answer_state {B} (q : ask (T := T) B) st its : mkState (snd (fst (answerH q st its))) (st_sets st) (st_builders st) = st.
Proof. rewrite answer_quiet. destruct st; reflexivity. Qed.

Lemma session_over {A} (s : session (T := T) A) : forall st its, h_over (st_heap st) <= h_over (st_heap (fst (snd (sessionH grow s st its)))).
Proof.
  induction s as [a|c k IH|B q k IH]; intros st its; cbn [sessionH]; [apply le_n| |].
  - etransitivity; [apply step_over|apply IH].
  - pose proof (answer_state q st its) as Ha. destruct (answerH q st its) as [[b h'] its1]. cbn [fst snd] in Ha. rewrite Ha. apply IH.
Qed.

Definition sessionAgree {A} (s : session (T := T) A) st its ps its' : Prop :=
  fst (sessionH grow s st its) = fst (sessionP s ps its') /\
  readRel (fst (snd (sessionH grow s st its))) (snd (snd (sessionH grow s st its))) (fst (snd (sessionP s ps its'))) (snd (snd (sessionP s ps its'))).

Theorem session_agree {A} (s : session (T := T) A) : allCmds vok cmdOk s -> forall st its ps its', readRel st its ps its' ->
  h_over (st_heap (fst (snd (sessionH grow s st its)))) = h_over (st_heap st) -> sessionAgree s st its ps its'.
Proof.
  unfold sessionAgree. induction s as [a|c k IH|B q k IH]; intros Hok st its ps its' Hr Hov; cbn [sessionH sessionP allCmds] in *; auto.
  - destruct Hok as [Hc Hk]. pose proof (step_over grow st c) as H1. pose proof (session_over k (step grow st c) its) as H2.
    apply IH; auto; [apply readRel_step; auto; lia|lia].
  - pose proof (readRel_answer q st its ps its' Hr) as Ha. destruct (answerH q st its) as [[b h'] jts].
    destruct (answerP q ps its') as [b' jts']. destruct Ha as (-> & -> & Hv & Ha).
    replace (mkState (st_heap st) (st_sets st) (st_builders st)) with st in * by (destruct st; reflexivity). apply IH; auto.
Qed.

(** Commands that are known not to overwrite slots in use. *)
Theorem session_agree_still {A} (P : cmd T -> Prop) (s : session (T := T) A) :
  (forall st ps c, related st ps -> cmdOk c -> P c -> h_over (st_heap (step grow st c)) = h_over (st_heap st)) ->
  allCmds vok (fun c => cmdOk c /\ P c) s -> forall st its ps its', readRel st its ps its' -> sessionAgree s st its ps its'.
Proof.
  intros HP. unfold sessionAgree. induction s as [a|c k IH|B q k IH]; intros Hok st its ps its' Hr; cbn [sessionH sessionP allCmds] in *; auto.
  - destruct Hok as [[Hc Hpc] Hk]. apply IH; auto. apply readRel_step; auto. eapply HP; eauto. apply Hr.
  - pose proof (readRel_answer q st its ps its' Hr) as Ha. destruct (answerH q st its) as [[b h'] jts].
    destruct (answerP q ps its') as [b' jts']. destruct Ha as (-> & -> & Hv & Ha).
    replace (mkState (st_heap st) (st_sets st) (st_builders st)) with st in * by (destruct st; reflexivity). apply IH; auto.
Qed.

(** ** Loops *)
Lemma sessionP_andThen {A B} (s : session (T := T) A) (k : A -> session B) : forall ps its,
  sessionP (andThen s k) ps its = let '(a, (ps', its')) := sessionP s ps its in sessionP (k a) ps' its'.
Proof.
  induction s as [a|c s IH|X q s IH]; intros ps its; cbn [andThen sessionP]; auto.
  destruct (answerP q ps its) as [b its']. apply IH.
Qed.
Lemma spares_iter it {A} (s : session (T := T) A) : spares it s -> forall ps its, it < length its ->
  nth it (snd (snd (sessionP s ps its))) IEmpty = nth it its IEmpty /\ it < length (snd (snd (sessionP s ps its))).
Proof.
  induction s as [a|c s IH|X q s IH]; intros Hs ps its Hl; cbn [spares sessionP] in *; auto. destruct Hs as [H1 H2].
  assert (Ha : otherIter it q (fst (answerP q ps its)) /\ nth it (snd (answerP q ps its)) IEmpty = nth it its IEmpty /\ it < length (snd (answerP q ps its))).
  { destruct q as [i v|i|eq i j|i j|i|i|i]; cbn [answerP otherIter otherNext fst snd] in *; auto.
    - rewrite app_nth1, app_length by auto. cbn. split; [intros [= H]; lia|]. split; [auto|lia].
    - destruct (inext (S treeFuel) (nth i its IEmpty)) as [[b it']| |]; cbn [fst snd]; auto. rewrite set_nth_length. split; auto. split; auto.
      apply nth_set_nth_ne; auto. }
  destruct (answerP q ps its) as [b its']. cbn [fst snd] in Ha. destruct Ha as (A1 & A2 & A3).
  destruct (IH b (H2 b A1) ps its' A3) as [B1 B2]. split; [congruence|auto].
Qed.
Lemma forLoop_seen {A} (body : T -> A -> session (T := T) A) it : (forall v a, spares it (body v a)) ->
  forall n seen a ps its, it < length its -> iok (vok := vok) 0 (nth it its IEmpty) -> length (remaining (nth it its IEmpty)) < n ->
  fst (fst (sessionP (forLoop n it body seen a) ps its)) = seen ++ remaining (nth it its IEmpty).
Proof.
  intros Hb. induction n as [|n IH]; intros seen a ps its Hl Hok Hn; [lia|]. cbn [forLoop sessionP answerP].
  pose proof (inext_spec (S treeFuel) 0 _ Hok) as Hx. specialize (Hx ltac:(unfold treeFuel; lia)).
  destruct Hx as (b & it' & E1 & Hok' & Hr). rewrite E1.
  destruct (remaining (nth it its IEmpty)) as [|x xs]; [destruct Hr as [-> _]; cbn; rewrite app_nil_r; auto|].
  destruct Hr as (-> & Hr & Hv). cbn [sessionP answerP]. rewrite nth_set_nth_eq by auto. rewrite Hv. rewrite sessionP_andThen.
  assert (Hl' : it < length (set_nth its it it')) by (rewrite set_nth_length; auto).
  destruct (spares_iter it (body x a) (Hb x a) ps (set_nth its it it') Hl') as [B1 B2].
  destruct (sessionP (body x a) ps (set_nth its it it')) as [a' [ps' its']]. cbn [fst snd] in *.
  rewrite nth_set_nth_eq in B1 by auto. cbn [length] in Hn. rewrite IH; auto; rewrite B1, ?Hr, <- ?app_assoc; auto. lia.
Qed.
Lemma rangeLoop_seen {A} (body : nat -> T -> A -> session (T := T) A) n i a ps its : (forall it v a, spares it (body it v a)) ->
  let u := nth i (ps_sets ps) emptyTree in tok vok u -> length (tel u) < n ->
  fst (fst (sessionP (rangeLoop n i body a) ps its)) = tel u.
Proof.
  intros Hb u Hu Hn. unfold rangeLoop. cbn [sessionP answerP]. fold u.
  assert (HE : nth (length its) (its ++ [t_iterator u]) IEmpty = t_iterator u) by (rewrite app_nth2, Nat.sub_diag by lia; reflexivity).
  assert (HR : remaining (t_iterator u) = tel u).
  { unfold t_iterator, tel, elemso. destruct (t_root u); auto. apply remaining_iterator. }
  rewrite forLoop_seen; rewrite ?HE, ?HR; auto; [rewrite app_length; cbn; lia|].
  destruct Hu as [Hu _]. unfold t_iterator. destruct (t_root u) as [m|]; [|constructor]. apply iok_iterator. auto.
Qed.

(** Programs put together of parts that spare an iterator. *)
Lemma spares_andThen it {A B} (s : session (T := T) A) (k : A -> session B) : spares it s -> (forall a, spares it (k a)) -> spares it (andThen s k).
Proof. intros Hs Hk. induction s as [a|c s IH|X q s IH]; cbn in *; auto. destruct Hs. auto. Qed.
Lemma spares_forLoop it {A} n j (body : T -> A -> session (T := T) A) : j <> it -> (forall v a, spares it (body v a)) ->
  forall seen a, spares it (forLoop n j body seen a).
Proof.
  intros Hj Hb. induction n as [|n IH]; intros seen a; cbn; auto. split; auto. intros [[|]| |] _; cbn; auto.
  split; auto. intros [v| |] _; cbn; auto. apply spares_andThen; auto.
Qed.
Lemma spares_rangeLoop it {A} n i (body : nat -> T -> A -> session (T := T) A) a : (forall j v a, spares it (body j v a)) ->
  spares it (rangeLoop n i body a).
Proof. intros Hb. cbn. split; auto. intros [j| |] Hj; cbn; auto. apply spares_forLoop; auto. Qed.
End ReadSim.
