(** * GroupFacts: maps and key-value pairs as elements; SetGroupBy. *)
From Verif Require Import Base Bits Env EnvFacts Node NodeWf NodeAdd NodeRemove NodeBin NodeBin2 NodeUn Iter Tree TreeFacts SetApi SetFacts MapApi MapFacts.

Section Instances.
Local Opaque maxTreeDepth fanout fb.
Context {E : Env} {HE : EnvOk E} {X V : Type} {KX : Key X} {kok : X -> Prop} {KO : KeyOk KX kok} {ZV : Zero V}.
Context {KV : Key V} {valok : V -> Prop} {KVO : KeyOk KV valok}.

(** Valid key-value pairs. *)
Definition kvok (e : keyValue X V) : Prop := kok (kv_key e) /\ valok (kv_val e).

#[global] Instance kvKeyOk : KeyOk (@kvKey X V KX KV) kvok.
Proof.
  constructor; unfold kvok; cbn.
  - intros a [H1 H2]. rewrite !veq_refl; auto.
  - intros a b [H1 H2] [H3 H4] H. apply andb_true_iff in H as [H5 H6]. apply andb_true_iff. split; apply veq_sym; auto.
  - intros a b c [H1 H2] [H3 H4] [H5 H6] H H'. apply andb_true_iff in H as [H7 H8]. apply andb_true_iff in H' as [H9 H10].
    apply andb_true_iff. split.
    + apply (veq_trans (kv_key a) (kv_key b)); auto.
    + apply (veq_trans (kv_val a) (kv_val b)); auto.
  - intros a b seed [H1 H2] [H3 H4] H. apply andb_true_iff in H as [H5 H6]. apply vhash_compat; auto.
  - intros a seed [H1 H2]. apply vhash_range; auto.
Qed.

(** Valid maps with valid values. *)
Definition mvok (m : gomap X V) : Prop := mok kok m /\ vals_ok valok m.

Lemma mget_ok m k v : mvok m -> mget m k = Some v -> valok v.
Proof.
  intros [H1 H2] H. unfold mget in H. destruct (klk (mel m) k) as [e|] eqn:Ek; [|discriminate].
  injection H as <-. apply klk_Some in Ek as [He _]. apply H2; auto.
Qed.

Lemma mhashOf_lt seed l : (forall e, In e l -> kok (e_key e) /\ valok (e_val e)) -> (@mhashOf E X V KX KV seed l < 2 ^ 64)%N.
Proof.
  intros H. unfold mhashOf. apply lxor_lt; [apply wrap_lt|].
  induction l as [|x l IH]; simpl fold_right; [reflexivity|].
  apply lxor_lt.
  - apply vhash_range. apply H. left; auto.
  - apply IH. intros e He. apply H. right; auto.
Qed.

#[global] Instance mapKeyOk : KeyOk (@mapKey E X V KX KV) mvok.
Proof.
  assert (HQ : forall a b, mvok a -> mvok b -> @veq _ mapKey a b = true <-> meqv kok a b).
  { intros a b [Ha _] [Hb _]. destruct (m_equal_ok (kok := kok) a b Ha Hb) as (x & E1 & Hx). cbn. rewrite E1. auto. }
  constructor.
  - intros a Ha. apply HQ; auto. intros k Hk. destruct (mget a k) as [v|] eqn:Ev; auto. apply (veq_refl (vok := valok)). (eapply mget_ok; [|eassumption]; auto).
  - intros a b Ha Hb. rewrite !HQ by auto. intros H k Hk. specialize (H k Hk).
    destruct (mget a k) as [u|] eqn:Eu, (mget b k) as [v|] eqn:Ev; auto. apply (veq_sym (vok := valok)); auto; (eapply mget_ok; [|eassumption]; auto).
  - intros a b c Ha Hb Hc. rewrite !HQ by auto. intros H H' k Hk. specialize (H k Hk). specialize (H' k Hk).
    destruct (mget a k) as [u|] eqn:Eu, (mget b k) as [v|] eqn:Ev, (mget c k) as [w|] eqn:Ew; auto; try tauto.
    apply (veq_trans (vok := valok) u v w); auto; (eapply mget_ok; [|eassumption]; auto).
  - intros a b seed Ha Hb. rewrite HQ by auto. intros H. destruct Ha as [Ha Ha'], Hb as [Hb Hb']. cbn.
    rewrite (m_hash_ok (kok := kok) a), (m_hash_ok (kok := kok) b) by auto.
    apply (mhashOf_meqv (kok := kok) (valok := valok)); auto.
  - intros a seed [Ha Ha']. cbn. rewrite (m_hash_ok (kok := kok) a) by auto. apply mhashOf_lt.
    intros e He. split; [|apply Ha'; auto]. apply (mok_allok a Ha); auto.
Qed.
End Instances.
Arguments kvok {X V} kok valok _.
Arguments mvok {E X V KX} kok valok _.

Section GroupBy.
Local Opaque maxTreeDepth fanout fb.
Context {E : Env} {HE : EnvOk E}.
Context {T : Type} {K : Key T} {vok : T -> Prop} {KO : KeyOk K vok}.
Context {X : Type} {KX : Key X} {kok : X -> Prop} {KXO : KeyOk KX kok}.
Context (key : T -> X).

(** After the first loop has processed [vs]. *)
Definition groupInv (builders : mapBuilder X nat) (store : list (setBuilder T)) (vs : list T) : Prop :=
  mbok (kok := kok) builders /\
  (forall b, In b store -> bok (vok := vok) b) /\
  (forall j, kok j ->
     match klk (mbel builders) j with
     | Some e => (exists b, nth_error store (e_val e) = Some b /\
                   forall w, vok w -> lookup (bel b) w = lookup (filter (fun v => veq (key v) j) vs) w) /\
                 exists v, In v vs /\ e_key e = key v
     | None => forall v, In v vs -> veq (key v) j = false
     end) /\
  (forall j1 j2 e1 e2, kok j1 -> kok j2 -> klk (mbel builders) j1 = Some e1 -> klk (mbel builders) j2 = Some e2 ->
     e_val e1 = e_val e2 -> veq j1 j2 = true).

Lemma in_set_nth {A} (l : list A) i x y : In y (set_nth l i x) -> In y l \/ y = x.
Proof.
  revert i; induction l as [|a l IH]; intros [|i] H; simpl in *; auto.
  - destruct H; auto.
  - destruct H as [H|H]; auto. apply IH in H. tauto.
Qed.

Lemma filter_none {A} (p : A -> bool) l : (forall x, In x l -> p x = false) -> filter p l = [].
Proof.
  induction l as [|a l IH]; simpl; intros H; auto. rewrite (H a) by auto. apply IH; auto.
Qed.

Lemma klk_eqv l j1 j2 : allok (eok (kok := kok)) l -> kok j1 -> kok j2 -> veq j1 j2 = true -> @klk X nat KX l j1 = klk l j2.
Proof.
  intros Ho H1 H2 Hq. exact (lookup_veq (vok := eok (kok := kok)) l (mkEntry j1 O) (mkEntry j2 O) Ho H1 H2 Hq).
Qed.

Lemma lookup_snoc l (v w : T) : allok vok l -> vok v -> vok w -> (forall e, In e l -> veq e v = false) ->
  lookup (l ++ [v]) w = if veq v w then Some v else lookup l w.
Proof.
  intros Ho Hv Hw H. rewrite (snoc_upd (vok := vok) (fun _ b => b)); auto.
  - unfold upd. destruct (veq v w); auto. destruct (lookup l v); auto.
  - apply lookup_None. auto.
Qed.

Lemma groupBy_step_ok builders store vs v :
  groupInv builders store vs -> allok vok (vs ++ [v]) -> distinct (vs ++ [v]) -> kok (key v) ->
  exists b' s', groupBy_step key (builders, store) v = Ok (b', s') /\ groupInv b' s' (vs ++ [v]).
Proof.
  intros (Hb & Hs & HI & HJ) Ho Hd Hk.
  assert (Hv : vok v) by (apply Ho, in_or_app; right; left; auto).
  assert (Hovs : allok vok vs) by (intros x Hx; apply Ho, in_or_app; auto).
  assert (Hnew : forall e, In e vs -> veq e v = false).
  { intros e He. apply distinct_app in Hd as (_ & _ & Hd). apply Hd; auto. left; auto. }
  assert (Hof : forall j, allok vok (filter (fun v => veq (key v) j) vs)) by (intros j; apply allok_filter; auto).
  assert (Hnf : forall j e, In e (filter (fun v => veq (key v) j) vs) -> veq e v = false).
  { intros j e He. apply filter_In in He as [He _]. auto. }
  pose proof (tok_allok _ Hb) as Hob. fold (mbel builders) in Hob.
  unfold groupBy_step. rewrite (mb_get_ok (kok := kok)) by auto. cbn [bind].
  pose proof (HI (key v) Hk) as HIk. destruct (klk (mbel builders) (key v)) as [e|] eqn:Ek; cbn [option_map bind].
  - destruct HIk as [(b & Hnb & HL) _]. unfold store_add. rewrite Hnb.
    assert (Hbb : bok (vok := vok) b) by (apply Hs; eapply nth_error_In; eauto).
    destruct (sb_add_ok (vok := vok) b v Hbb Hv) as (b1 & E1 & Hb1 & HL1 & _). rewrite E1. cbn [bind].
    eexists _, _. split; [reflexivity|]. split; auto. split; [|split; auto].
    + intros x Hx. apply in_set_nth in Hx as [Hx| ->]; auto.
    + intros j Hj. specialize (HI j Hj). destruct (klk (mbel builders) j) as [e'|] eqn:Ej.
      * destruct HI as [(b' & Hnb' & HL') (v' & Hv' & Hkv')].
        split; [|exists v'; split; auto; apply in_or_app; auto].
        destruct (Nat.eq_dec (e_val e) (e_val e')) as [He|He].
        -- assert (Hq : veq (key v) j = true) by (apply (HJ (key v) j e e'); auto).
           rewrite <- He in *. assert (b' = b) by congruence. exists b1. split.
           { apply nth_error_set_nth_eq. apply nth_error_Some. congruence. }
           intros w Hw. rewrite HL1 by auto. rewrite filter_app. cbn [filter]. rewrite Hq.
           rewrite lookup_snoc by eauto. destruct (veq v w); auto. rewrite <- HL' by auto. congruence.
        -- assert (Hq : veq (key v) j = false).
           { destruct (veq (key v) j) eqn:Hq; auto. rewrite (klk_eqv _ (key v) j) in Ek by auto. congruence. }
           exists b'. split; [rewrite nth_error_set_nth_ne; auto|]. intros w Hw. rewrite filter_app. cbn [filter]. rewrite Hq, app_nil_r.
           auto.
      * intros v' Hv'. apply in_app_or in Hv' as [Hv'|[<-|[]]]; auto.
        destruct (veq (key v) j) eqn:Hq; auto. rewrite (klk_eqv _ (key v) j) in Ek by auto. congruence.
  - destruct (mb_put_ok (kok := kok) builders (key v) (length store) Hb Hk) as (bs & E0 & Hbs & HLb & _).
    rewrite E0. cbn [bind]. unfold store_add. rewrite nth_error_app2, Nat.sub_diag by lia. cbn [nth_error].
    destruct (sb_add_ok (vok := vok) (mkSB emptyTree) v (bok_empty (vok := vok)) Hv) as (b1 & E1 & Hb1 & HL1 & _). rewrite E1. cbn [bind].
    eexists _, _. split; [reflexivity|]. split; auto. split; [|split].
    + intros x Hx. apply in_set_nth in Hx as [Hx| ->]; auto. apply in_app_or in Hx as [Hx|[<-|[]]]; auto. apply bok_empty.
    + intros j Hj. rewrite HLb by auto. destruct (veq (key v) j) eqn:Hq; cbn [e_val e_key].
      * split; [|exists v; split; auto; apply in_or_app; right; left; auto]. exists b1. split.
        { apply nth_error_set_nth_eq. rewrite app_length. simpl. lia. }
        intros w Hw. rewrite HL1 by auto. rewrite filter_app. cbn [filter]. rewrite Hq.
        rewrite lookup_snoc by eauto. rewrite filter_none; [reflexivity|].
        intros v' Hv'. pose proof (HIk v' Hv') as Hf. destruct (veq (key v') j) eqn:Hq'; auto.
        (* key v' ~ j ~ key v, impossible *)
        specialize (HI j Hj). rewrite <- (klk_eqv _ (key v) j) in HI by auto. rewrite Ek in HI. rewrite (HI v' Hv') in Hq'. discriminate.
      * specialize (HI j Hj). destruct (klk (mbel builders) j) as [e'|] eqn:Ej.
        -- destruct HI as [(b' & Hnb' & HL') (v' & Hv' & Hkv')]. split; [|exists v'; split; auto; apply in_or_app; auto].
           assert (Hlt : e_val e' < length store) by (apply nth_error_Some; congruence).
           exists b'. split; [rewrite nth_error_set_nth_ne by lia; rewrite nth_error_app1; auto|].
           intros w Hw. rewrite filter_app. cbn [filter]. rewrite Hq, app_nil_r. auto.
        -- intros v' Hv'. apply in_app_or in Hv' as [Hv'|[<-|[]]]; auto.
    + intros j1 j2 e1 e2 Hj1 Hj2. rewrite !HLb by auto.
      assert (HB : forall j e, kok j -> klk (mbel builders) j = Some e -> e_val e < length store).
      { intros j e Hj Hje. specialize (HI j Hj). rewrite Hje in HI. destruct HI as [(b' & Hnb' & _) _]. apply nth_error_Some. congruence. }
      destruct (veq (key v) j1) eqn:Q1, (veq (key v) j2) eqn:Q2; intros H1 H2 H3.
      * apply (veq_trans j1 (key v) j2); auto. apply veq_sym; auto.
      * injection H1 as <-. cbn in H3. apply HB in H2; auto. lia.
      * injection H2 as <-. cbn in H3. apply HB in H1; auto. lia.
      * eapply HJ; eauto.
Qed.

Lemma groupBy_loop_ok vs : forall done builders store,
  groupInv builders store done -> allok vok (done ++ vs) -> distinct (done ++ vs) -> (forall v, In v vs -> kok (key v)) ->
  exists b' s', foldM (groupBy_step key) (builders, store) vs = Ok (b', s') /\ groupInv b' s' (done ++ vs).
Proof.
  induction vs as [|v vs IH]; intros done builders store HI Ho Hd Hk; cbn [foldM].
  - rewrite app_nil_r. eauto.
  - assert (Heq : done ++ v :: vs = (done ++ [v]) ++ vs) by (rewrite <- app_assoc; auto). rewrite Heq in *.
    destruct (groupBy_step_ok builders store done v HI) as (b1 & s1 & E1 & HI1).
    { intros x Hx. apply Ho, in_or_app. auto. }
    { apply distinct_app in Hd. tauto. }
    { apply Hk. left; auto. }
    rewrite E1. cbn [bind]. apply IH; auto. intros x Hx. apply Hk. right; auto.
Qed.

(** The second loop. *)
Lemma groupBy_collect_ok (store0 : list (setBuilder T)) (es : list (entry X nat)) : forall result store,
  NoDup (map e_val es) -> (forall e, In e es -> nth_error store (e_val e) = nth_error store0 (e_val e)) ->
  exists f, foldM groupBy_collect (result, store) (map pair_of es) =
    bind (foldM (fun r e => match nth_error store0 (e_val e) with
                            | Some b => mb_put r (e_key e) (fst (sb_finish b)) | None => Panic end) result es)
         (fun r => Ok (r, f r)).
Proof.
  induction es as [|e es IH]; intros result store HN Hst; cbn [foldM map].
  - exists (fun _ => store). reflexivity.
  - cbn [groupBy_collect]. unfold store_finish. cbn [pair_of fst snd].
    rewrite Hst by (left; auto). destruct (nth_error store0 (e_val e)) as [b|] eqn:Eb; cbn [bind].
    2:{ exists (fun _ => store). reflexivity. }
    cbn [sb_finish fst]. destruct (mb_put result (e_key e) (mkSet (fst (b_finish (sb_tree b))))) as [r| |] eqn:Er.
    + unfold sb_finish. cbn. cbn in Er. rewrite Er. cbn [bind]. inversion HN; subst.
      apply IH; auto. intros e' He'. rewrite nth_error_set_nth_ne.
      * apply Hst. right; auto.
      * intros Heq. match goal with H : ~ In _ _ |- _ => apply H end. rewrite Heq. apply in_map. auto.
    + exists (fun _ => store). unfold sb_finish. cbn. cbn in Er. rewrite Er. reflexivity.
    + exists (fun _ => store). unfold sb_finish. cbn. cbn in Er. rewrite Er. reflexivity.
Qed.

Lemma s_groupBy_ok s : sok vok s -> (forall v, In v (sel s) -> kok (key v)) ->
  exists r, s_groupBy s key = Ok r /\ mok kok r /\
    forall j, kok j ->
      match klk (mel r) j with
      | Some e => sok vok (e_val e) /\ (exists v, In v (sel s) /\ e_key e = key v) /\
          (forall w, vok w -> lookup (sel (e_val e)) w = lookup (filter (fun v => veq (key v) j) (sel s)) w)
      | None => forall v, In v (sel s) -> veq (key v) j = false
      end.
Proof.
  intros Hs Hk. unfold s_groupBy. rewrite (s_elements_ok (vok := vok)) by auto. cbn [bind].
  destruct (groupBy_loop_ok (sel s) [] (mkMB emptyTree) []) as (bs & store & E1 & Hb & Hst & HI & HJ); auto.
  { split; [apply mbok_empty|]. split; [intros b []|]. split; [intros j Hj v []|]. intros j1 j2 e1 e2 _ _ H1. discriminate. }
  { apply sok_allok; auto. } { eapply sok_distinct; eauto. }
  cbn [app] in HI. rewrite E1. cbn [bind].
  destruct (mb_finish_ok bs Hb) as [Hm Hmel]. rewrite (m_entries_ok (kok := kok)) by auto. cbn [bind].
  set (m0 := fst (mb_finish bs)) in *. rewrite <- Hmel in *.
  pose proof (mok_allok m0 Hm) as Ho. pose proof (mok_distinct m0 Hm) as Hd.
  assert (Hself : forall e, In e (mel m0) -> klk (mel m0) (e_key e) = Some e).
  { intros e He. apply (klk_iff (kok := kok)); auto; [apply (Ho e He)|]. split; auto. apply veq_refl. apply (Ho e He). }
  assert (HN : NoDup (map e_val (mel m0))).
  { assert (HG : forall l, distinct l -> (forall e, In e l -> In e (mel m0)) -> NoDup (map e_val l)).
    { induction 1 as [|a l Ha Hdl IH]; intros Hin; simpl; constructor.
      - intros Hx. apply in_map_iff in Hx as (e & He & Hel). pose proof (Ha e Hel) as Hq. cbn in Hq.
        assert (Hia : In a (mel m0)) by (apply Hin; left; auto). assert (Hie : In e (mel m0)) by (apply Hin; right; auto).
        rewrite (HJ (e_key a) (e_key e) a e) in Hq; auto; try discriminate; try (apply (Ho a Hia)); apply (Ho e Hie).
      - apply IH. intros e He. apply Hin. right; auto. }
    apply HG; auto. }
  assert (Hptr : forall e, In e (mel m0) -> exists b, nth_error store (e_val e) = Some b /\ bok (vok := vok) b).
  { intros e He. pose proof (HI (e_key e) (Ho e He)) as Hx. rewrite (Hself e He) in Hx. destruct Hx as [(b & Hnb & _) _].
    exists b. split; auto. apply Hst. eapply nth_error_In; eauto. }
  destruct (groupBy_collect_ok store (mel m0) (mkMB emptyTree) store HN) as (f & E2); auto.
  rewrite E2.
  destruct (mb_fold_ok (kok := kok)
    (fun e : entry X nat => match nth_error store (e_val e) with Some b => Some (mkEntry (e_key e) (fst (sb_finish b))) | None => None end)
    (fun r e => match nth_error store (e_val e) with Some b => mb_put r (e_key e) (fst (sb_finish b)) | None => Panic end) (mel m0))
    with (b := @mkMB X (set T) emptyTree) as (r & E3 & Hr & HR).
  { intros b e He _. destruct (Hptr e He) as (b' & -> & _). reflexivity. }
  { intros e e' He Hx. destruct (nth_error store (e_val e)); [|discriminate]. injection Hx as <-. apply (Ho e He). }
  { apply mbok_empty. }
  rewrite E3. cbn [bind]. exists (fst (mb_finish r)). split; auto. split; auto.
  intros j Hj. rewrite (proj2 (mb_finish_ok r Hr)), HR by auto.
  set (g := fun e : entry X nat => mkEntry (e_key e)
              (match nth_error store (e_val e) with Some b => fst (sb_finish b) | None => mkSet emptyTree end)).
  assert (Hfl : forall l, (forall e, In e l -> In e (mel m0)) ->
     flat_map (fun a : entry X nat => match match nth_error store (e_val a) with
         | Some b => Some (mkEntry (e_key a) (fst (sb_finish b))) | None => None end with Some e => [e] | None => [] end) l = map g l).
  { induction l as [|e l IH]; intros Hin; cbn [flat_map map]; auto. rewrite IH by (intros; apply Hin; right; auto).
    destruct (Hptr e (Hin e (or_introl eq_refl))) as (b & Hnb & _). rewrite Hnb. unfold g at 2. rewrite Hnb. reflexivity. }
  rewrite Hfl by auto.
  rewrite (klast_distinct (kok := kok)).
  - assert (HK : klk (map g (mel m0)) j = option_map g (klk (mel m0) j)).
    { generalize (mel m0). clear. induction l as [|a l IH]; simpl; auto. unfold klk in *. simpl. destruct (veq (e_key a) j); auto. }
    rewrite HK. specialize (HI j Hj). destruct (klk (mel m0) j) as [e|] eqn:Ek; cbn [option_map].
    + destruct HI as [(b & Hnb & HL) Hx]. unfold g. cbn [e_val e_key]. rewrite Hnb. split; [|split; auto].
      apply Hst. eapply nth_error_In; eauto.
    + intros v Hv. auto.
  - clear - Hd. induction Hd as [|a l Ha Hd IH]; simpl; constructor; auto.
    intros e He. apply in_map_iff in He as (b & <- & Hb). apply (Ha b Hb).
  - intros e He. apply in_map_iff in He as (b & <- & Hb'). apply (Ho b Hb').
  - auto.
Qed.
End GroupBy.
