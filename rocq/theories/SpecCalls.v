(** * SpecCalls: which calls the operations make of their callbacks (C55). *)
From Coq Require Import Sorting.Permutation.
From Verif Require Import Base Bits Env EnvFacts Node NodeWf NodeAdd NodeRemove NodeBin NodeBin2 NodeUn Iter Tree TreeFacts
  SetApi SetFacts MapApi MapFacts GroupFacts Clash Reach ExtraFacts IntSet IntFacts Spec SpecSet SpecMap SpecInt Calls CallFacts.
Local Open Scope nat_scope.

(** ** A function that gives the answers of a list of calls *)

Section Answer.
Context {Q R : Type} (eq : Q -> Q -> bool).
Fixpoint apartBy (l : list Q) : Prop := match l with [] => True | a :: l' => (forall b, In b l' -> eq a b = false) /\ apartBy l' end.
Definition ansBy (dflt : Q -> R) (tr : list (Q * R)) (q : Q) : R :=
  match find (fun x => eq (fst x) q) tr with Some x => snd x | None => dflt q end.

Lemma ansBy_agrees dflt tr : (forall q, In q (map fst tr) -> eq q q = true) -> apartBy (map fst tr) -> agrees (ansBy dflt tr) tr.
Proof.
  intros Hr Ha q r Hin. unfold ansBy. induction tr as [|[q0 r0] tr IH]; [destruct Hin|]. simpl in *. destruct Ha as [H1 H2].
  destruct Hin as [H|Hin].
  - inversion H; subst. rewrite Hr by auto. reflexivity.
  - rewrite H1 by (apply in_map_iff; exists (q, r); auto). apply IH; auto.
Qed.
Lemma ansBy_in dflt tr q : (exists q', In (q', ansBy dflt tr q) tr) \/ ansBy dflt tr q = dflt q.
Proof.
  unfold ansBy. destruct (find _ tr) as [[q' r]|] eqn:Ef; auto. apply find_some in Ef as [H _]. left. exists q'. exact H.
Qed.
End Answer.

Lemma sim_run {W Q R A} (cb : W -> Q -> R * W) (m : sres (W := W) A) pure post w : sim cb m pure post ->
  exists tr w' r, m w = rmap (fun a => (a, w')) r /\ follows cb w tr w' /\ (forall p, agrees p tr -> pure p = r) /\ post tr r.
Proof. intros H. apply H. Qed.

Section SetCalls.
Context {E : Env} {HE : EnvOk E} {T : Type} {K : Key T} {vok : T -> Prop} {KO : KeyOk K vok} {W : Type}.
Local Opaque maxTreeDepth fanout fb.

Lemma distinct_apart (l : list T) : distinct l -> apartBy veq l.
Proof. induction 1; simpl; auto. Qed.

Lemma elems_agrees {R} (dflt : T -> R) l tr : distinct l -> allok vok l -> map fst tr = l -> agrees (ansBy veq dflt tr) tr.
Proof.
  intros Hd Hok Hl. apply ansBy_agrees; rewrite Hl.
  - intros q Hq. apply veq_refl; auto.
  - apply distinct_apart; auto.
Qed.

Lemma s_whereS_sim (s : set T) (pred : W -> T -> bool * W) : sok vok s ->
  sim pred (s_whereS s pred) (fun p => s_where s p) (fun tr r => Permutation (map fst tr) (sel s) /\ exists a, r = Ok a).
Proof.
  intros Hs. unfold s_whereS, s_where, t_where, sel, tel. pose proof Hs as [Hw _].
  destruct (t_root (s_tree s)) as [n|] eqn:En; simpl elemso.
  - apply sim_pure with (pure := fun p => bind (where_ treeFuel (s_gauge s) p n 0) (fun om => Ok (mkSet (mkTree (fst om) (snd om))))).
    { intros p. destruct (where_ _ _ _ _ _) as [[o m]| |]; reflexivity. }
    eapply sim_bind; [apply (whereS_sim (vok := vok)); [apply Hw; auto|apply gaugeOk_new; exact HE|apply fuelBin_tree]|..].
    + intros tr [o m] [H1 _] _. apply sim_ret. rewrite app_nil_r. eauto.
    + intros tr [_ [a Ha]]. discriminate.
    + intros tr [_ [a Ha]]. discriminate.
  - apply sim_pure with (pure := fun _ => Ok s).
    { intros p. destruct s as [[rt c]]. reflexivity. }
    apply sim_ret. simpl. eauto.
Qed.

(** Where asks about every element exactly once; the result holds the elements answered with true. *)
Lemma c55_where (s : set T) (pred : W -> T -> bool * W) w : SetReach vok s ->
  exists l tr w' p r, s_elements s = Ok l /\ Permutation (map fst tr) l /\ follows pred w tr w' /\ agrees p tr /\
    s_where s p = Ok r /\ s_whereS s pred w = Ok (r, w') /\ (forall e, Holds r e <-> In (e, true) tr).
Proof.
  intros Hs. apply sreach_ok in Hs. destruct (s_whereS_sim s pred Hs w) as (tr & w' & r & E1 & F1 & A1 & P1 & a & ->).
  assert (Hag : agrees (ansP tr) tr) by (apply (ansP_perm (vok := vok) tr (sel s)); auto; [apply (tok_distinct (vok := vok))|apply tok_allok]; auto).
  exists (sel s), tr, w', (ansP tr), a. split; [apply (s_elements_ok (vok := vok)); auto|]. split; auto. split; auto. split; auto.
  split; [apply A1; auto|]. split; [exact E1|].
  intros e. destruct (s_where_ok (vok := vok) s (ansP tr)) as (r & Er & Hr & Hl); auto. rewrite A1 in Er by auto. injection Er as <-.
  rewrite (holds_In (vok := vok)), Hl, filter_In by auto. split.
  - intros [He Hp]. apply (Permutation_in _ (Permutation_sym P1)) in He. apply in_map_iff in He as ([e' b] & <- & Hin). simpl in *.
    rewrite (Hag _ _ Hin) in Hp. subst b. auto.
  - intros Hin. split; [|apply Hag; auto]. eapply Permutation_in; [exact P1|]. apply in_map_iff. exists (e, true). auto.
Qed.

(** ** Reduce *)

(** Every element and every answer but the last is passed to the callback exactly once; the result is the last answer. *)
Lemma c55_reduce (s : set T) (red : W -> list T -> T * W) w : SetReach vok s ->
  exists l tr w' o, s_elements s = Ok l /\ follows red w tr w' /\ s_reduceS s red w = Ok (o, w') /\
    (forall p, agrees p tr -> s_reduce s p = Ok o) /\ (forall q a, In (q, a) tr -> q <> []) /\
    match o with
    | None => l = [] /\ tr = []
    | Some t => Permutation (concat (map fst tr) ++ [t]) (l ++ map snd tr) /\ exists tr' q, tr = tr' ++ [(q, t)]
    end.
Proof.
  intros Hs. apply sreach_ok in Hs. exists (sel s). unfold s_reduceS, s_reduce, t_reduce. unfold sel, tel. pose proof Hs as [Hw _].
  rewrite (s_elements_ok (vok := vok)) by auto. unfold sel, tel.
  destruct (t_root (s_tree s)) as [n|] eqn:En; simpl elemso.
  - destruct (reduceS_sim (vok := vok) treeFuel (s_gauge s) 0 red n) with (w := w) as (tr & w' & r & E1 & F1 & A1 & N1 & t & -> & P1).
    + apply Hw. auto.
    + apply gaugeOk_new; exact HE.
    + pose proof fuelBin_tree as Hf. unfold fuelBin in Hf. lia.
    + exists tr, w', (Some t). split; auto. split; auto. split; [unfold sbind; rewrite E1; reflexivity|]. split; auto.
      intros p Hp. rewrite A1 by auto. reflexivity.
  - exists [], w, None. split; auto. split; [constructor|]. split; [reflexivity|]. split; [reflexivity|]. split; [intros q a []|split; reflexivity].
Qed.

Lemma fold2S_follows (op : W -> T * T -> T * W) l : forall a w, exists tr,
  follows op w tr (snd (fold2S op a l w)) /\
  Permutation (flat_map (fun q => [fst q; snd q]) (map fst tr) ++ [fst (fold2S op a l w)]) (a :: l ++ map snd tr).
Proof.
  induction l as [|e l IH]; intros a w; cbn [fold2S].
  - exists []. split; [constructor|]. simpl. auto.
  - destruct (op w (a, e)) as [a' w'] eqn:Eo. destruct (IH a' w') as (tr & H1 & H2). exists ((a, e, a') :: tr). split.
    + econstructor; eauto.
    + cbn [map flat_map fst snd app]. apply perm_skip. apply perm_skip. etransitivity; [exact H2|]. apply Permutation_middle.
Qed.

Lemma reduce2_follows dflt (op : W -> T * T -> T * W) w tr w' : (forall q a, In (q, a) tr -> q <> []) ->
  follows (fun w l => match l with [] => (dflt, w) | a :: l' => fold2S op a l' w end) w tr w' ->
  exists tr2, follows op w tr2 w' /\
    Permutation (flat_map (fun q => [fst q; snd q]) (map fst tr2) ++ map snd tr) (concat (map fst tr) ++ map snd tr2).
Proof.
  intros Hn. induction 1 as [w|w q r w1 tr w2 H1 H2 IH].
  - exists []. split; [constructor|auto].
  - destruct IH as (tr2 & F2 & P2); [intros; eapply Hn; right; eauto|].
    destruct q as [|a l]; [exfalso; apply (Hn [] r); [left; auto|auto]|].
    destruct (fold2S_follows op l a w) as (tr1 & F1 & P1). rewrite H1 in F1, P1. simpl in F1, P1.
    exists (tr1 ++ tr2). split; [eapply follows_app; eauto|].
    rewrite !map_app, flat_map_app. cbn [map concat fst snd]. clear - P1 P2.
    set (A := flat_map _ (map fst tr1)) in *. set (B := flat_map _ (map fst tr2)) in *.
    transitivity ((A ++ [r]) ++ (B ++ map snd tr)).
    { rewrite <- !app_assoc. apply Permutation_app_head. change (r :: map snd tr) with ([r] ++ map snd tr). rewrite !app_assoc.
      apply Permutation_app_tail. apply Permutation_app_comm. }
    rewrite P1, P2. change (a :: l ++ map snd tr1) with ((a :: l) ++ map snd tr1). rewrite <- !app_assoc. apply Permutation_app_head.
    rewrite !app_assoc. apply Permutation_app_tail. apply Permutation_app_comm.
Qed.

(** Reduce2 calls the function Count-1 times; every element and every answer but the result is an argument exactly once. *)
Lemma c55_reduce2 dflt (s : set T) (op : W -> T * T -> T * W) w : SetReach vok s ->
  exists l tr w' o, s_elements s = Ok l /\ follows op w tr w' /\ s_reduce2S dflt s op w = Ok (o, w') /\
    match o with
    | None => l = [] /\ tr = []
    | Some t => S (length tr) = length l /\
        Permutation (flat_map (fun q => [fst q; snd q]) (map fst tr) ++ [t]) (l ++ map snd tr)
    end.
Proof.
  intros Hs. unfold s_reduce2S.
  destruct (c55_reduce s (fun w l => match l with [] => (dflt, w) | a :: l' => fold2S op a l' w end) w Hs)
    as (l & tr & w' & o & E1 & F1 & E2 & _ & N1 & Ho).
  destruct (reduce2_follows dflt op w tr w' N1 F1) as (tr2 & F2 & P2).
  exists l, tr2, w', o. split; auto. split; auto. split; auto. destruct o as [t|].
  - destruct Ho as [P1 _].
    assert (HP : Permutation (flat_map (fun q => [fst q; snd q]) (map fst tr2) ++ [t]) (l ++ map snd tr2)).
    { apply (Permutation_app_inv_l (map snd tr)). set (A := flat_map _ _) in *.
      transitivity ((A ++ map snd tr) ++ [t]).
      { rewrite !app_assoc. apply Permutation_app_tail. apply Permutation_app_comm. }
      rewrite P2. transitivity ((concat (map fst tr) ++ [t]) ++ map snd tr2).
      { rewrite <- !app_assoc. apply Permutation_app_head. apply Permutation_app_comm. }
      rewrite P1, !app_assoc. apply Permutation_app_tail. apply Permutation_app_comm. }
    split; auto. apply Permutation_length in HP. rewrite !app_length, map_length in HP. simpl in HP.
    assert (HL : length (flat_map (fun q : T * T => [fst q; snd q]) (map fst tr2)) = 2 * length tr2).
    { clear. induction tr2; simpl in *; lia. }
    lia.
  - destruct Ho as [-> ->]. split; auto. simpl in P2. apply Permutation_length in P2. rewrite !app_length in P2. simpl in P2. rewrite map_length in P2.
    destruct tr2 as [|x tr2]; auto. exfalso. simpl in P2.
    assert (HL : length (flat_map (fun q : T * T => [fst q; snd q]) (map fst tr2)) = 2 * length tr2).
    { clear. induction tr2; simpl in *; lia. }
    lia.
Qed.
End SetCalls.

(** ** Loops *)

Lemma sim_lift_bind {W Q R A B} (cb : W -> Q -> R * W) (m : res A) a (k : A -> sres (W := W) B) pure (post : list (Q * R) -> res B -> Prop) :
  m = Ok a -> sim cb (k a) pure post -> sim cb (x <s slift m ;; k x) pure post.
Proof.
  intros -> H w. destruct (H w) as (tr & w' & r & E1 & R1). exists tr, w', r. split; auto.
Qed.

Lemma apartBy_app {Q} (eq : Q -> Q -> bool) l1 l2 : apartBy eq (l1 ++ l2) ->
  apartBy eq l1 /\ forall a b, In a l1 -> In b l2 -> eq a b = false.
Proof.
  induction l1 as [|a l1 IH]; simpl; [split; [auto|intros a b []]|]. intros [H1 H2]. apply IH in H2 as [H2 H3]. split; [split; auto|].
  - intros b Hb. apply H1. apply in_app_iff. auto.
  - intros a' b [<-|Ha] Hb; auto. apply H1. apply in_app_iff. auto.
Qed.

(** A loop that ends whenever the answers satisfy [ok] asks all its questions. *)
Lemma sim_loop {W Q R A} (eq : Q -> Q -> bool) (cb : W -> Q -> R * W) (m : sres (W := W) A) pure l (ok : Q -> R -> Prop) w :
  sim cb m pure (asked l) -> apartBy eq l -> (forall q, In q l -> eq q q = true) -> (forall w q, In q l -> ok q (fst (cb w q))) ->
  (forall p, (forall q, In q l -> ok q (p q)) -> exists a, pure p = Ok a) ->
  exists tr w' p a, map fst tr = l /\ follows cb w tr w' /\ agrees p tr /\ pure p = Ok a /\ m w = Ok (a, w').
Proof.
  intros Hs Ha Hr Hok Hp. destruct (Hs w) as (tr & w' & r & E1 & F1 & A1 & rest & P1 & P2). subst l.
  apply apartBy_app in Ha as [Ha1 Ha2]. set (p := ansBy eq (fun q => fst (cb w q)) tr).
  assert (Hag : agrees p tr) by (apply ansBy_agrees; auto; intros q Hq; apply Hr; apply in_app_iff; auto).
  destruct (Hp p) as (a & Ea).
  { intros q Hq. pose proof Hq as Hq'. apply in_app_iff in Hq as [Hq|Hq].
    - apply in_map_iff in Hq as ([q0 r0] & H1 & Hin). simpl in H1. subst q0. rewrite (Hag _ _ Hin).
      destruct (follows_in cb w tr w' q r0 F1 Hin) as (w0 & <-). auto.
    - replace (p q) with (fst (cb w q)); [auto|]. unfold p, ansBy. destruct (find _ tr) as [[q' r']|] eqn:Ef; auto.
      apply find_some in Ef as [Hin Hq2]. simpl in Hq2. rewrite (Ha2 q' q) in Hq2; [discriminate| |auto].
      apply in_map_iff. exists (q', r'). auto. }
  assert (r = Ok a) as -> by (rewrite <- (A1 p Hag); auto).
  exists tr, w', p, a. rewrite (P2 a eq_refl), app_nil_r. auto.
Qed.

(** What follows a loop makes no calls. *)
Lemma sim_after {W Q R A B} (cb : W -> Q -> R * W) (m : sres (W := W) A) (k : A -> res B) pure (l : list Q) :
  sim cb m pure (asked l) -> sim cb (x <s m ;; slift (k x)) (fun p => bind (pure p) k) (asked l).
Proof.
  intros H. eapply sim_bind; [exact H|..].
  - intros tr a Ha _. apply sim_lift. eapply asked_done; eauto.
  - apply asked_panic.
  - apply asked_fuel.
Qed.

Lemma sbind_lift2 {W A B} (m : sres (W := W) A) (k : A -> sres (W := W) B) (k' : A -> res B) w :
  (forall a w, k a w = slift (k' a) w) -> (x <s m ;; k x) w = (x <s m ;; slift (k' x)) w.
Proof. intros H. unfold sbind. destruct (m w) as [[a w']| |]; simpl; auto. Qed.

Lemma foldM_ext {A B} (f g : B -> A -> res B) l : (forall b a, f b a = g b a) -> forall b, foldM f b l = foldM g b l.
Proof.
  intros H. induction l as [|a l IH]; intros b; cbn [foldM]; auto. rewrite H. destruct (g b a); simpl; auto.
Qed.

Section SetLoops.
Context {E : Env} {HE : EnvOk E} {T U : Type} {K : Key T} {vok : T -> Prop} {KO : KeyOk K vok} {KU : Key U} {uok : U -> Prop} {KUO : KeyOk KU uok} {W : Type}.
Local Opaque maxTreeDepth fanout fb.

Lemma sel_apart (s : set T) : sok vok s -> apartBy veq (sel s) /\ forall q, In q (sel s) -> veq q q = true.
Proof.
  intros Hs. split; [apply (distinct_apart (T := T)); apply (tok_distinct (vok := vok)); auto|].
  intros q Hq. apply veq_refl. apply (tok_allok (vok := vok) (s_tree s)); auto.
Qed.

Lemma s_mapS_sim (s : set T) (f : W -> T -> U * W) : sok vok s ->
  sim f (s_mapS s f) (fun p => s_map s p) (asked (sel s)).
Proof.
  intros Hs. unfold s_mapS, s_map, t_map. rewrite (t_range_ok (vok := vok)) by auto. fold (sel s).
  destruct (t_root (s_tree s)) as [n|] eqn:En.
  - apply sim_lift_bind with (a := sel s); auto.
    apply sim_pure with (pure := fun p => bind (foldM (fun b v => b_add b (p v)) emptyTree (sel s)) (fun b => Ok (mkSet (fst (b_finish b))))).
    { intros p. unfold sel, tel. cbn [bind]. rewrite En. destruct (foldM _ _ _); reflexivity. }
    apply (sim_after f _ (fun b => Ok (mkSet (fst (b_finish b))))). apply (sim_fold f) with (h := fun u b _ => b_add b u); auto.
  - apply sim_pure with (pure := fun _ => Ok (mkSet emptyTree)); auto. apply sim_ret. exists []. unfold sel, tel. rewrite En. auto.
Qed.

(** SetMap asks about the elements in the order of Range. *)
Lemma c55_map (s : set T) (f : W -> T -> U * W) w : SetReach vok s -> (forall w e, Holds s e -> uok (fst (f w e))) ->
  exists l tr w' p r, s_elements s = Ok l /\ map fst tr = l /\ follows f w tr w' /\ agrees p tr /\
    s_map s p = Ok r /\ s_mapS s f w = Ok (r, w').
Proof.
  intros Hs Hf. apply sreach_ok in Hs. exists (sel s).
  destruct (sim_loop veq f (s_mapS s f) (fun p => s_map s p) (sel s) (fun _ u => uok u) w) as (tr & w' & p & a & H);
    [apply s_mapS_sim; auto|apply sel_apart; auto|apply sel_apart; auto| | |].
  - intros w0 q Hq. apply Hf. apply (holds_In (vok := vok)); auto.
  - intros p Hp. destruct (s_map_ok (vok := vok) (uok := uok) s p) as (r & Er & _); eauto.
  - exists tr, w', p, a. split; [apply (s_elements_ok (vok := vok)); auto|exact H].
Qed.

(** SetGroupBy asks about the elements in the order of Range. *)
Lemma s_groupByS_sim (s : set T) (key : W -> T -> U * W) : sok vok s ->
  sim key (s_groupByS s key) (fun p => s_groupBy s p) (asked (sel s)).
Proof.
  intros Hs. unfold s_groupByS, s_groupBy. apply sim_lift_bind with (a := sel s); [apply (s_elements_ok (vok := vok)); auto|].
  set (rest := fun bs : mapBuilder U nat * list (setBuilder T) =>
    l <- m_entries (fst (mb_finish (fst bs))) ;;
    bind (foldM groupBy_collect (mkMB emptyTree, snd bs) l) (fun x => Ok (fst (mb_finish (fst x))))).
  apply sim_pure with (pure := fun p => bind (foldM (fun st v => groupBy_step (fun _ => p v) st v) (mkMB emptyTree, []) (sel s)) rest).
  { intros p. rewrite (s_elements_ok (vok := vok)) by auto. cbn [bind].
    change (foldM (fun st v => groupBy_step (fun _ => p v) st v) (mkMB emptyTree, []) (sel s)) with (foldM (groupBy_step p) (mkMB emptyTree, []) (sel s)).
    destruct (foldM (groupBy_step p) _ _) as [[b st]| |]; auto. unfold rest. simpl. destruct (m_entries _); auto. simpl.
    destruct (foldM _ _ _) as [[r x]| |]; reflexivity. }
  eapply sim_ext; [intros w; apply sbind_lift2 with (k' := rest)|].
  { intros [b st] w1. unfold rest, sbind, slift. cbn [fst snd]. destruct (m_entries _); auto. cbn [rmap bind fst snd].
    destruct (foldM _ _ _) as [[r x]| |]; reflexivity. }
  apply (sim_after key _ rest). apply (sim_fold key) with (h := fun k st v => groupBy_step (fun _ => k) st v); auto.
Qed.

Lemma c55_groupBy (s : set T) (key : W -> T -> U * W) w : SetReach vok s -> (forall w e, Holds s e -> uok (fst (key w e))) ->
  exists l tr w' p m, s_elements s = Ok l /\ map fst tr = l /\ follows key w tr w' /\ agrees p tr /\
    s_groupBy s p = Ok m /\ s_groupByS s key w = Ok (m, w').
Proof.
  intros Hs Hf. apply sreach_ok in Hs. exists (sel s).
  destruct (sim_loop veq key (s_groupByS s key) (fun p => s_groupBy s p) (sel s) (fun _ u => uok u) w) as (tr & w' & p & a & H);
    [apply s_groupByS_sim; auto|apply sel_apart; auto|apply sel_apart; auto| | |].
  - intros w0 q Hq. apply Hf. apply (holds_In (vok := vok)); auto.
  - intros p Hp. destruct (s_groupBy_ok (vok := vok) (kok := uok) p s Hs) as (r & Er & _); eauto.
  - exists tr, w', p, a. split; [apply (s_elements_ok (vok := vok)); auto|exact H].
Qed.
End SetLoops.

Section MapLoops.
Context {E : Env} {HE : EnvOk E} {X V U : Type} {KX : Key X} {ZV : Zero V} {ZU : Zero U} {kok : X -> Prop} {KXO : KeyOk KX kok}
  {valok : V -> Prop} {W : Type}.
Local Opaque maxTreeDepth fanout fb.

(** Equality of entries compares the keys only. *)
Definition keyEq (a b : X * V) : bool := veq (fst a) (fst b).

Lemma mel_apart (m : gomap X V) : mok kok m ->
  apartBy keyEq (map pair_of (mel m)) /\ forall q, In q (map pair_of (mel m)) -> keyEq q q = true.
Proof.
  intros Hm. split.
  - assert (Hd : distinct (mel m)) by (apply (mok_distinct (kok := kok)); auto). induction Hd as [|e l H1 H2 IH]; simpl; auto. split; auto.
    intros b Hb. apply in_map_iff in Hb as (e' & <- & He'). apply (H1 e' He').
  - intros q Hq. apply in_map_iff in Hq as (e & <- & He). apply veq_refl. apply (mok_allok (kok := kok) m Hm e He).
Qed.

Lemma c55_mapWhere (m : gomap X V) (pred : W -> X * V -> bool * W) w : MapReach kok valok m ->
  exists l tr w' p r, m_entries m = Ok l /\ map fst tr = l /\ follows pred w tr w' /\ agrees p tr /\
    m_where m (fun k v => p (k, v)) = Ok r /\ m_whereS m pred w = Ok (r, w') /\
    (forall k v, Entry r k v <-> In (k, v, true) tr).
Proof.
  intros Hr. pose proof Hr as Hm. apply mreach_ok in Hm. exists (map pair_of (mel m)).
  destruct (sim_loop keyEq pred (m_whereS m pred) (fun p => m_where m (fun k v => p (k, v))) (map pair_of (mel m)) (fun _ _ => True) w) as (tr & w' & p & a & H1 & H2 & H3 & H4 & H5);
    [|apply mel_apart; auto|apply mel_apart; auto|auto| |].
  - unfold m_whereS, m_where. apply sim_lift_bind with (a := map pair_of (mel m)); [apply (m_entries_ok (kok := kok)); auto|].
    apply sim_pure with (pure := fun p => bind (foldM (fun b kv => if p kv : bool then mb_put b (fst kv) (snd kv) else Ok b) (mkMB emptyTree) (map pair_of (mel m))) (fun b => Ok (fst (mb_finish b)))).
    { intros p. rewrite (m_entries_ok (kok := kok)) by auto. cbn [bind]. f_equal. apply foldM_ext. intros b [k v]. reflexivity. }
    apply (sim_after pred _ (fun b => Ok (fst (mb_finish b)))).
    apply (sim_fold pred) with (h := fun (a : bool) b kv => if a then mb_put b (fst kv) (snd kv) else Ok b).
    intros b q w0. unfold sbind, scall, slift, sret. cbn [bind fst snd]. destruct (pred w0 q) as [[|] w1]; reflexivity.
  - intros p _. destruct (m_where_ok (kok := kok) m (fun k v => p (k, v)) Hm) as (r & Er & _). eauto.
  - exists tr, w', p, a. split; [apply (m_entries_ok (kok := kok)); auto|]. repeat (split; [assumption|]).
    destruct (c25_where (kok := kok) (valok := valok) m (fun k v => p (k, v)) Hr) as (r & Er & HE').
    assert (r = a) as -> by congruence. intros k v. rewrite HE'. split.
    + intros [(l & El & Hin) Hp]. rewrite (m_entries_ok (kok := kok)) in El by auto. injection El as <-. rewrite <- H1 in Hin.
      apply in_map_iff in Hin as ([kv b] & Hkv & Hin). simpl in Hkv. subst kv. rewrite (H3 _ _ Hin) in Hp. subst b. auto.
    + intros Hin. split; [|apply H3; auto]. exists (map pair_of (mel m)). split; [apply (m_entries_ok (kok := kok)); auto|].
      rewrite <- H1. apply in_map_iff. exists (k, v, true). auto.
Qed.

Lemma c55_mapMap (m : gomap X V) (f : W -> X * V -> U * W) w : MapReach kok valok m ->
  exists l tr w' p r, m_entries m = Ok l /\ map fst tr = l /\ follows f w tr w' /\ agrees p tr /\
    m_map m (fun k v => p (k, v)) = Ok r /\ m_mapS m f w = Ok (r, w') /\
    (forall k u, Entry r k u <-> exists v, In (k, v, u) tr).
Proof.
  intros Hr. pose proof Hr as Hm. apply mreach_ok in Hm. exists (map pair_of (mel m)).
  destruct (sim_loop keyEq f (m_mapS m f) (fun p => m_map m (fun k v => p (k, v))) (map pair_of (mel m)) (fun _ _ => True) w) as (tr & w' & p & a & H1 & H2 & H3 & H4 & H5);
    [|apply mel_apart; auto|apply mel_apart; auto|auto| |].
  - unfold m_mapS, m_map. apply sim_lift_bind with (a := map pair_of (mel m)); [apply (m_entries_ok (kok := kok)); auto|].
    apply sim_pure with (pure := fun p => bind (foldM (fun b kv => mb_put b (fst kv) (p kv)) (mkMB emptyTree) (map pair_of (mel m))) (fun b => Ok (fst (mb_finish b)))).
    { intros p. rewrite (m_entries_ok (kok := kok)) by auto. cbn [bind]. f_equal. apply foldM_ext. intros b [k v]. reflexivity. }
    apply (sim_after f _ (fun b => Ok (fst (mb_finish b)))).
    apply (sim_fold f) with (h := fun u b kv => mb_put b (fst kv) u). auto.
  - intros p _. destruct (m_map_ok (kok := kok) m (fun k v => p (k, v)) Hm) as (r & Er & _). eauto.
  - exists tr, w', p, a. split; [apply (m_entries_ok (kok := kok)); auto|]. repeat (split; [assumption|]).
    destruct (c25_map (kok := kok) (valok := valok) m (fun k v => p (k, v)) Hr) as (r & Er & HE').
    assert (r = a) as -> by congruence. intros k u. rewrite HE'. split; intros (v & Hv); exists v.
    + destruct Hv as [(l & El & Hin) Hp]. rewrite (m_entries_ok (kok := kok)) in El by auto. injection El as <-. rewrite <- H1 in Hin.
      apply in_map_iff in Hin as ([kv b] & Hkv & Hin). simpl in Hkv. subst kv. rewrite (H3 _ _ Hin) in Hp. subst b. auto.
    + split; [|symmetry; apply H3; auto]. exists (map pair_of (mel m)). split; [apply (m_entries_ok (kok := kok)); auto|].
      rewrite <- H1. apply in_map_iff. exists (k, v, u). auto.
Qed.

Lemma c55_fromKeys (s : set X) (f : W -> X -> V * W) w : SetReach kok s ->
  exists l tr w' p r, s_elements s = Ok l /\ map fst tr = l /\ follows f w tr w' /\ agrees p tr /\
    m_fromKeys s p = Ok r /\ m_fromKeysS s f w = Ok (r, w') /\ (forall k v, Entry r k v <-> In (k, v) tr).
Proof.
  clear valok. intros Hr. pose proof Hr as Hs. apply sreach_ok in Hs. exists (sel s).
  destruct (sim_loop veq f (m_fromKeysS s f) (fun p => m_fromKeys s p) (sel s) (fun _ _ => True) w) as (tr & w' & p & a & H1 & H2 & H3 & H4 & H5);
    [|apply (sel_apart (vok := kok)); auto|apply (sel_apart (vok := kok)); auto|auto| |].
  - unfold m_fromKeysS, m_fromKeys. apply sim_lift_bind with (a := sel s); [apply (s_elements_ok (vok := kok)); auto|].
    apply sim_pure with (pure := fun p => bind (foldM (fun b k => mb_put b k (p k)) (newMapBuilder (s_count s)) (sel s)) (fun b => Ok (fst (mb_finish b)))).
    { intros p. rewrite (s_elements_ok (vok := kok)) by auto. reflexivity. }
    apply (sim_after f _ (fun b => Ok (fst (mb_finish b)))).
    apply (sim_fold f) with (h := fun v b k => mb_put b k v). auto.
  - intros p _. destruct (m_fromKeys_ok (kok := kok) s p Hs) as (r & Er & _). eauto.
  - exists tr, w', p, a. split; [apply (s_elements_ok (vok := kok)); auto|]. repeat (split; [assumption|]).
    destruct (c25_fromKeys (kok := kok) s p Hr) as (r & Er & HE').
    assert (r = a) as -> by congruence. intros k v. rewrite HE', (holds_In (vok := kok)) by auto. rewrite <- H1. split.
    + intros [Hin ->]. apply in_map_iff in Hin as ([k' v] & Hk & Hin). simpl in Hk. subst k'. rewrite (H3 _ _ Hin). auto.
    + intros Hin. split; [|symmetry; apply H3; auto]. apply in_map_iff. exists (k, v). auto.
Qed.
End MapLoops.

(** ** Merge *)

Section MergeCalls.
Context {E : Env} {HE : EnvOk E} {X V : Type} {KX : Key X} {ZV : Zero V} {kok : X -> Prop} {KXO : KeyOk KX kok}
  {valok : V -> Prop} {W : Type}.
Local Opaque maxTreeDepth fanout fb.

Lemma t_combineS_sim {T} {K : Key T} {vok : T -> Prop} {KO : KeyOk K vok} g (f : W -> T * T -> T * W) t u : tok vok t -> tok vok u ->
  cbOk (vok := vok) f -> gaugeOk g ->
  sim f (t_combineS g veq f t u) (fun p => t_combine (cargs g p) t u) (callsPost (tel t) (tel u)).
Proof.
  intros [Ht _] [Hu _] Hcb Hg. unfold t_combineS, t_combine, tel. destruct (t_root t) as [n|] eqn:En; simpl elemso.
  - destruct (t_root u) as [n2|] eqn:En2; simpl elemso.
    + apply sim_pure with (pure := fun p => bind (combine treeFuel (cargs g p) n n2 0) (fun rm => Ok (mkTree (Some (fst rm)) (t_count t + t_count u - snd rm)))).
      { intros p. destruct (combine _ _ _ _ _) as [[r m]| |]; reflexivity. }
      eapply sim_bind; [apply (combineS_sim (vok := vok)); [apply Ht; auto|apply Hu; auto|auto|auto|apply fuelBin_tree]|..].
      * intros tr1 [r m] [H1 H2] _. apply sim_ret. rewrite app_nil_r. split; auto. intros x _. apply (H2 _ eq_refl).
      * intros tr1 [H1 H2]. split; auto. discriminate.
      * intros tr1 [H1 H2]. split; auto. discriminate.
    + apply sim_ret. split; [split; [constructor|intros a b []]|]. intros x _ a b _ [].
  - apply sim_ret. split; [split; [constructor|intros a b []]|]. intros x _ a b [].
Qed.

Definition ofPair (q : entry X V * entry X V) : X * V * V := (e_key (fst q), e_val (fst q), e_val (snd q)).

Lemma mergeCb_ok (resolve : W -> X * V * V -> V * W) : cbOk (vok := eok (kok := kok)) (mergeCb resolve).
Proof.
  intros w a b Ha Hb Hab. unfold mergeCb. destruct (resolve w _) as [v w']. cbn [fst snd]. split; [exact Ha|exact Hab].
Qed.

Lemma m_mergeS_sim (m n : gomap X V) (resolve : W -> X * V * V -> V * W) : mok kok m -> mok kok n ->
  sim resolve (m_mergeS m n resolve) (fun p => m_merge m n (fun k a b => p (k, a, b)))
    (fun tr r => exists l : list (entry X V * entry X V * V),
       tr = map (fun x => (ofPair (fst x), snd x)) l /\ NoDup (map fst l) /\
       (forall a b, In (a, b) (map fst l) -> In a (mel m) /\ In b (mel n) /\ veq a b = true) /\
       (forall x, r = Ok x -> forall a b, In a (mel m) -> In b (mel n) -> veq a b = true -> In (a, b) (map fst l))).
Proof.
  intros Hm Hn. unfold m_mergeS, m_merge.
  pose proof (t_combineS_sim (vok := eok (kok := kok)) (newGauge (m_count m)) (mergeCb resolve) (m_tree m) (m_tree n) Hm Hn (mergeCb_ok resolve)) as H.
  specialize (H (gaugeOk_new _ HE)).
  apply (sim_conv resolve (mergeCb resolve) ofPair (fun q v => newMapEntry (e_key (fst q)) v)) in H.
  2:{ intros w q. unfold mergeCb, ofPair. destruct (resolve w _) as [v w']. reflexivity. }
  apply sim_pure with (pure := fun p => bind (t_combine (cargs (newGauge (m_count m)) (fun q => newMapEntry (e_key (fst q)) (p (ofPair q)))) (m_tree m) (m_tree n)) (fun t => Ok (mkMap t))).
  { intros p. reflexivity. }
  eapply sim_bind; [exact H|..].
  - intros tr1 t (l & -> & [Hn1 Hn2] & Hn3) _. apply sim_ret. rewrite app_nil_r. exists l.
    rewrite map_map in *. cbn [fst] in *. specialize (Hn3 t eq_refl). auto.
  - intros tr1 (l & -> & [Hn1 Hn2] & Hn3). exists l. rewrite map_map in *. cbn [fst] in *. repeat (split; auto). discriminate.
  - intros tr1 (l & -> & [Hn1 Hn2] & Hn3). exists l. rewrite map_map in *. cbn [fst] in *. repeat (split; auto). discriminate.
Qed.

Definition question3Eq (q q' : X * V * V) : bool := veq (fst (fst q)) (fst (fst q')).

(** Merge asks about every key that both maps have, exactly once, with the key as it is in [m] and the values in [m] and in [n]. *)
Lemma c55_merge (m n : gomap X V) (resolve : W -> X * V * V -> V * W) w : MapReach kok valok m -> MapReach kok valok n ->
  exists tr w' p r, follows resolve w tr w' /\ agrees p tr /\
    m_mergeS m n resolve w = rmap (fun x => (x, w')) r /\ m_merge m n (fun k a b => p (k, a, b)) = r /\
    Unequal (map (fun x => fst (fst (fst x))) tr) /\
    (forall k a b c, In (k, a, b, c) tr -> Entry m k a /\ Maps n k b) /\
    (forall x k a b, r = Ok x -> Entry m k a -> Maps n k b -> exists c, In (k, a, b, c) tr /\ Maps x k c).
Proof.
  intros Hmr Hnr. pose proof Hmr as Hm. pose proof Hnr as Hn. apply mreach_ok in Hm, Hn.
  destruct (m_mergeS_sim m n resolve Hm Hn w) as (tr & w' & r & E1 & F1 & A1 & l & Htr & L1 & L2 & L3).
  pose proof (mok_allok (kok := kok) m Hm) as Om. pose proof (mok_allok (kok := kok) n Hn) as On.
  assert (Hap : apartBy question3Eq (map fst tr)).
  { rewrite Htr, map_map. cbn [fst]. clear Htr F1 A1 E1 L3. induction l as [|[[a b] c] l IH]; simpl; auto.
    inversion L1 as [|? ? N1 N2]; subst. split; [|apply IH; auto; intros; apply L2; right; auto].
    intros q Hq. apply in_map_iff in Hq as ([[a' b'] c'] & <- & Hin). unfold question3Eq, ofPair. cbn [fst snd].
    destruct (veq (e_key a) (e_key a')) eqn:Ea; auto. exfalso. apply N1.
    destruct (L2 a b) as (Ha & Hb & Hab); [left; auto|]. destruct (L2 a' b') as (Ha' & Hb' & Hab'); [right; apply in_map_iff; eexists; split; [|exact Hin]; reflexivity|].
    assert (a = a') by (apply (distinct_eq (vok := eok (kok := kok)) (mel m)); auto; apply (mok_distinct (kok := kok)); auto). subst a'.
    assert (b = b').
    { apply (distinct_eq (vok := eok (kok := kok)) (mel n)); auto; [apply (mok_distinct (kok := kok)); auto|].
      apply (veq_trans (vok := eok (kok := kok)) b a b'); auto. rewrite (veq_sym (vok := eok (kok := kok))); auto. }
    subst b'. apply in_map_iff. exists (a, b, c'). auto. }
  assert (Hkey : forall k a b c, In (k, a, b, c) tr -> exists eb, In (mkEntry k a) (mel m) /\ In eb (mel n) /\ veq k (e_key eb) = true /\ e_val eb = b /\ In (mkEntry k a, eb) (map fst l)).
  { intros k a b c Hin. rewrite Htr in Hin. apply in_map_iff in Hin as ([[ea eb] c'] & Hx & Hin). unfold ofPair in Hx. simpl in Hx. inversion Hx; subst.
    assert (Hp : In (ea, eb) (map fst l)) by (apply in_map_iff; eexists; split; [|exact Hin]; reflexivity).
    destruct (L2 _ _ Hp) as (Ha & Hb & Hab). exists eb. destruct ea as [k a]. simpl in *. auto. }
  set (p := ansBy question3Eq (fun q => snd q) tr).
  assert (Hag : agrees p tr).
  { apply ansBy_agrees; auto. intros [[k a] b] Hq. apply in_map_iff in Hq as ([[[k' a'] b'] c] & Hx & Hin). simpl in Hx. inversion Hx; subst.
    destruct (Hkey _ _ _ _ Hin) as (eb & Ha & _). unfold question3Eq. simpl. apply veq_refl. apply (Om _ Ha). }
  exists tr, w', p, r. split; auto. split; auto. split; auto. split; [apply A1; auto|]. split; [|split].
  - apply (distinct_Unequal (vok := kok)).
    + intros k Hk. apply in_map_iff in Hk as ([[[k' a'] b'] c] & Hx & Hin). simpl in Hx. subst k'.
      destruct (Hkey _ _ _ _ Hin) as (eb & Ha & _). apply (Om _ Ha).
    + clear - Hap. induction tr as [|[q c] tr IH]; simpl in *; constructor.
      * intros k Hk. apply in_map_iff in Hk as (x & <- & Hin). destruct Hap as [H1 _]. apply (H1 (fst x)). apply in_map. auto.
      * apply IH. apply Hap.
  - intros k a b c Hin. destruct (Hkey _ _ _ _ Hin) as (eb & Ha & Hb & Hq & <- & _). split; [apply (entry_In (kok := kok)); auto|].
    assert (Hk : kok k) by apply (Om _ Ha). apply (maps_mget (kok := kok)); auto. unfold mget.
    replace (klk (mel n) k) with (Some eb); [reflexivity|]. symmetry. apply (klk_iff (kok := kok)); auto. split; auto.
    rewrite (veq_sym (vok := kok)); auto. apply (On _ Hb).
  - intros x k a b Hx He Hmap. pose proof He as He'. apply (entry_In (kok := kok)) in He; auto. assert (Hk : kok k) by apply (Om _ He).
    pose proof Hmap as Hmap'. apply (maps_mget (kok := kok)) in Hmap; auto. unfold mget in Hmap. destruct (klk (mel n) k) as [eb|] eqn:Ek; [|discriminate].
    simpl in Hmap. injection Hmap as <-. apply (klk_iff (kok := kok)) in Ek as [Hb Hq]; auto.
    assert (Hp : In (mkEntry k a, eb) (map fst l)).
    { apply (L3 x Hx); auto. change (veq k (e_key eb) = true). rewrite (veq_sym (vok := kok)); auto. apply (On _ Hb). }
    apply in_map_iff in Hp as ([[ea eb'] c] & Hy & Hin). simpl in Hy. inversion Hy; subst ea eb'.
    assert (Hc : In (k, a, e_val eb, c) tr) by (rewrite Htr; apply in_map_iff; eexists; split; [|exact Hin]; reflexivity).
    exists c. split; auto. pose proof (A1 p Hag) as Hpure. rewrite Hx in Hpure.
    destruct (c22_merge (kok := kok) (valok := valok) m n (fun k a b => p (k, a, b)) x Hmr Hnr Hpure) as (H1 & _).
    assert (Hma : Maps m k a).
    { apply (maps_mget (kok := kok)); auto. unfold mget. apply (entry_klk (kok := kok)) in He'; auto. rewrite He'. reflexivity. }
    destruct (H1 k a (e_val eb) Hk Hma Hmap') as (k' & Hk' & Hq' & Hr). 
    apply (entry_In (kok := kok)) in Hk'; auto.
    assert (Hkk : mkEntry k' a = mkEntry k a) by (apply (distinct_eq (vok := eok (kok := kok)) (mel m)); auto; apply (mok_distinct (kok := kok)); auto).
    inversion Hkk; subst k'. cbn beta in Hr. rewrite (Hag _ _ Hc) in Hr. exact Hr.
Qed.
End MergeCalls.

Section MergeEnds.
Context {E : Env} {HE : EnvOk E} {X V : Type} {KX : Key X} {ZV : Zero V} {kok : X -> Prop} {KXO : KeyOk KX kok}
  {valok : V -> Prop} {W : Type}.

(** Whether Merge panics does not depend on the answers. *)
Lemma c55_merge_panic (m n : gomap X V) (resolve : W -> X * V * V -> V * W) w lm ln : MapReach kok valok m -> MapReach kok valok n ->
  m_entries m = Ok lm -> m_entries n = Ok ln ->
  (Overfull (map fst lm) (map fst ln) /\ m_mergeS m n resolve w = Panic) \/
  (~ Overfull (map fst lm) (map fst ln) /\ exists r w', m_mergeS m n resolve w = Ok (r, w')).
Proof.
  intros Hm Hn Elm Eln. destruct (c55_merge (kok := kok) (valok := valok) m n resolve w Hm Hn) as (tr & w' & p & r & _ & _ & E1 & E2 & _).
  destruct (c19_merge_exact (kok := kok) (valok := valok) m n (fun k a b => p (k, a, b)) lm ln Hm Hn Elm Eln) as [(H1 & H2 & _)|(H1 & (x & H2) & _)].
  - left. split; auto. rewrite E1. assert (r = Panic) as -> by congruence. reflexivity.
  - right. split; auto. exists x, w'. rewrite E1. assert (r = Ok x) as -> by congruence. reflexivity.
Qed.
End MergeEnds.

(** ** IntSet *)

Section IntCalls.
Local Open Scope Z_scope.
Context {E : Env} {HE : EnvOk E} (I : intTy) (h : Z -> N -> N) (HI : it_ok I) {W : Type}.
Local Opaque maxTreeDepth fanout fb ctz popcount one_bits strip_low.
#[local] Instance isKC : Key Z := isK h.

Lemma foldM_Ok {A B} (f : B -> A -> B) l : forall b, foldM (fun b a => Ok (f b a)) b l = Ok (fold_left f l b).
Proof. induction l as [|a l IH]; intros b; cbn [foldM fold_left bind]; auto. Qed.

Lemma NoDup_apart (l : list Z) : NoDup l -> apartBy Z.eqb l.
Proof.
  induction 1 as [|a l H1 H2 IH]; simpl; auto. split; auto. intros b Hb. apply Z.eqb_neq. intros ->. auto.
Qed.

Lemma where_cellS_sim (pred : W -> Z -> bool * W) (e : entry Z N) : isCell (e_val e) ->
  sim pred (where_cellS I pred (e_key e) (e_val e)) (fun p => Ok (where_cell I p (e_key e) (e_val e))) (asked (cellVals I e)).
Proof.
  intros Hc. unfold where_cellS, where_cell.
  assert (bit_loop 64 64 (e_val e) = one_bits 64 (e_val e)) as -> by exact (bit_loop_one_bits 64 64 (e_val e) Hc (one_bits_length 64 (e_val e))).
  apply sim_pure with (pure := fun p => foldM (fun newCell maskIndex => Ok (if p (it_wrap I (it_wrap I (e_key e * 64) + Z.of_nat maskIndex)) : bool
      then N.lor newCell (wshl 64 1 (N.of_nat maskIndex)) else newCell)) 0%N (one_bits 64 (e_val e))).
  { intros p. rewrite foldM_Ok. reflexivity. }
  replace (cellVals I e) with (flat_map (fun j => [cell_value I (e_key e) (Z.of_nat j)]) (one_bits 64 (e_val e))).
  2:{ unfold cellVals. induction (one_bits 64 (e_val e)); simpl; congruence. }
  apply (sim_foldG pred _ (fun p newCell maskIndex => Ok (if p (it_wrap I (it_wrap I (e_key e * 64) + Z.of_nat maskIndex)) : bool
      then N.lor newCell (wshl 64 1 (N.of_nat maskIndex)) else newCell))).
  intros b j _.
  apply sim_call1 with (purek := fun (a : bool) _ => Ok (if a then N.lor b (wshl 64 1 (N.of_nat j)) else b)); [|auto].
  intros a _. apply sim_ret. exists []. split; auto. simpl. unfold cell_value. rewrite Z.shiftl_mul_pow2 by lia. reflexivity.
Qed.

Lemma is_whereS_sim (s : intSet) (pred : W -> Z -> bool * W) : isok I h s ->
  sim pred (is_whereS I h s pred) (fun p => is_where I h s p) (asked (isel I s)).
Proof.
  intros Hs. unfold is_whereS, is_where.
  assert (El : m_entries (is_data s) = Ok (map pair_of (mel (is_data s)))) by (apply (m_entries_ok (KX := ifK h) (kok := anyKey)); apply Hs).
  apply sim_lift_bind with (a := map pair_of (mel (is_data s))); auto.
  set (rest := fun bc : mapBuilder Z N * Z => Ok (mkIS (fst (mb_finish (fst bc))) (snd bc))).
  apply sim_pure with (pure := fun p => bind (foldM (fun bc kv => c <- Ok (where_cell I p (fst kv) (snd kv)) ;; put_cell h bc (fst kv) c)
    (mkMB emptyTree, 0) (map pair_of (mel (is_data s)))) rest).
  { intros p. rewrite El. cbn [bind]. destruct (foldM _ _ _) as [[b c]| |]; reflexivity. }
  eapply sim_ext; [intros w; apply sbind_lift2 with (k' := rest); intros [b c] w1; reflexivity|].
  apply (sim_after pred _ rest). unfold isel.
  assert (Hc : forall e, In e (mel (is_data s)) -> isCell (e_val e)) by (intros e He; apply (cellsOk_s I h s Hs e He)).
  assert (Hq : forall es, flat_map (cellVals I) es = flat_map (fun kv => cellVals I (mkEntry (fst kv) (snd kv))) (map pair_of es)).
  { induction es as [|[k v] es IH]; simpl; congruence. }
  rewrite Hq.
  apply (sim_foldG pred _ (fun p bc kv => c <- Ok (where_cell I p (fst kv) (snd kv)) ;; put_cell h bc (fst kv) c)).
  intros b kv Hin. apply in_map_iff in Hin as ([k v] & <- & Hin). cbn [pair_of e_key e_val fst snd].
  apply (sim_after pred _ (fun c => put_cell h b k c)). apply (where_cellS_sim pred (mkEntry k v)). apply (Hc _ Hin).
Qed.

(** IntSet.Where asks about every element, in the order of Range. *)
Lemma c55_intWhere (s : intSet) (pred : W -> Z -> bool * W) w : IntReach I h fits s ->
  exists l tr w' p r, is_elements I s = Ok l /\ map fst tr = l /\ follows pred w tr w' /\ agrees p tr /\
    is_where I h s p = Ok r /\ is_whereS I h s pred w = Ok (r, w') /\
    (forall i, IntIn h r i <-> In (i, true) tr).
Proof.
  intros Hr. pose proof Hr as Hs. apply (reach_isok I h HI) in Hs. exists (isel I s).
  destruct (sim_loop Z.eqb pred (is_whereS I h s pred) (fun p => is_where I h s p) (isel I s) (fun _ _ => True) w) as (tr & w' & p & a & H1 & H2 & H3 & H4 & H5).
  - apply is_whereS_sim; auto.
  - apply NoDup_apart. apply (isel_NoDup I h); auto.
  - intros q _. apply Z.eqb_refl.
  - auto.
  - intros p _. destruct (is_where_ok I h HI s p Hs) as (r & Er & _). eauto.
  - exists tr, w', p, a. split; [apply (is_elements_ok I h); auto|]. repeat (split; [assumption|]).
    destruct (is_where_ok I h HI s p Hs) as (r & Er & Hrok & Hm). assert (r = a) as -> by congruence.
    intros i. rewrite (IntIn_member I h a i Hrok), Hm, andb_true_iff, <- (isel_In I h) by auto. rewrite <- H1. split.
    + intros [Hin Hp]. apply in_map_iff in Hin as ([j b] & Hj & Hin). simpl in Hj. subst j. rewrite (H3 _ _ Hin) in Hp. subst b. auto.
    + intros Hin. split; [|apply H3; auto]. apply in_map_iff. exists (i, true). auto.
Qed.

(** IntSet.Map asks about every element, in the order of Range. *)
Lemma c55_intMap ord (s : intSet) (f : W -> Z -> Z * W) w : (forall g, Permutation (ord g) g) -> IntReach I h fits s ->
  (forall w i, IntIn h s i -> it_in I (fst (f w i)) /\ fits (fst (f w i))) ->
  exists l tr w' p r, is_elements I s = Ok l /\ map fst tr = l /\ follows f w tr w' /\ agrees p tr /\
    is_map I h ord s p = Ok r /\ is_mapS I h ord s f w = Ok (r, w') /\
    (forall i, IntIn h r i <-> In i (map snd tr)).
Proof.
  intros Ho Hr Hf. pose proof Hr as Hs. apply (reach_isok I h HI) in Hs. exists (isel I s).
  assert (Hf' : forall w i, In i (isel I s) -> it_in I (fst (f w i)) /\ fits (fst (f w i))).
  { intros w0 i Hi. apply Hf. apply (IntIn_member I h s i); auto. apply (isel_In I h); auto. }
  assert (Hsim : sim f (is_mapS I h ord s f) (fun p => is_map I h ord s p) (asked (isel I s))).
  { unfold is_mapS, is_map. apply sim_lift_bind with (a := isel I s); [apply (is_elements_ok I h); auto|].
    apply sim_pure with (pure := fun p => bind (foldM (fun arr i => Ok (arr ++ [p i])) [] (isel I s)) (is_new h ord)).
    { intros p. rewrite (is_elements_ok I h) by auto. cbn [bind]. rewrite foldM_Ok. cbn [bind]. f_equal.
      assert (H : forall l acc, fold_left (fun (arr : list Z) i => arr ++ [p i]) l acc = acc ++ map p l).
      { induction l as [|x l IH]; intros acc; cbn [fold_left map]; [rewrite app_nil_r; auto|]. rewrite IH, <- app_assoc. reflexivity. }
      rewrite H. reflexivity. }
    apply (sim_after f _ (is_new h ord)). apply (sim_fold f) with (h := fun v arr _ => Ok (arr ++ [v])). auto. }
  destruct (sim_loop Z.eqb f _ _ (isel I s) (fun _ v => it_in I v /\ fits v) w Hsim) as (tr & w' & p & a & H1 & H2 & H3 & H4 & H5).
  - apply NoDup_apart. apply (isel_NoDup I h); auto.
  - intros q _. apply Z.eqb_refl.
  - intros w0 q Hq. apply Hf'. auto.
  - intros p Hp. destruct (is_map_ok I h HI ord s p Ho Hs) as (r & Er & _); [|eauto]. intros i Hi. apply Hp. apply (isel_In I h); auto.
  - exists tr, w', p, a. split; [apply (is_elements_ok I h); auto|]. repeat (split; [assumption|]).
    destruct (is_map_ok I h HI ord s p Ho Hs) as (r & Er & Hrok & Hm).
    { intros i Hi. apply (isel_In I h) in Hi; auto. rewrite <- H1 in Hi. apply in_map_iff in Hi as ([j v] & Hj & Hin). simpl in Hj. subst j.
      rewrite (H3 _ _ Hin). destruct (follows_in f w tr w' i v H2 Hin) as (w0 & <-). apply Hf'. rewrite <- H1. apply in_map_iff. eexists; split; [|exact Hin]. reflexivity. }
    assert (r = a) as -> by congruence. intros i. rewrite (IntIn_member I h a i Hrok), Hm by auto. split.
    + intros (j & Hj & Hp). apply (isel_In I h) in Hj; auto. rewrite <- H1 in Hj. apply in_map_iff in Hj as ([j' v] & Hj & Hin). simpl in Hj. subst j'.
      rewrite (H3 _ _ Hin) in Hp. subst v. apply in_map_iff. exists (j, i). auto.
    + intros Hin. apply in_map_iff in Hin as ([j v] & Hv & Hin). simpl in Hv. subst v. exists j. split; [|apply H3; auto].
      apply (isel_In I h); auto. rewrite <- H1. apply in_map_iff. exists (j, i). auto.
Qed.
End IntCalls.
