(** * MapFacts: what the functions of MapApi.v compute on valid maps. *)
From Verif Require Import Base Bits Env EnvFacts Node NodeWf NodeAdd NodeRemove NodeBin NodeBin2 NodeUn Iter Tree TreeFacts SetApi SetFacts MapApi.

Lemma clash_sym {T} (a b : node T) : clash a b -> clash b a.
Proof. induction 1; econstructor; eauto. Qed.
Lemma tclash_sym {T} (a b : tree T) : tclash a b -> tclash b a.
Proof. unfold tclash. destruct (t_root a), (t_root b); auto using clash_sym. Qed.

Section MapFacts.
Local Opaque maxTreeDepth fanout fb.
Context {E : Env} {HE : EnvOk E} {X V : Type} {KX : Key X} {kok : X -> Prop} {KO : KeyOk KX kok} {ZV : Zero V}.
Notation entry := (entry X V).
Notation gomap := (gomap X V).

(** Valid entries: only the key matters. *)
Definition eok (e : entry) : Prop := kok (e_key e).

#[global] Instance entryKeyOk : KeyOk (@entryKey X V KX) eok.
Proof.
  constructor; unfold eok; cbn; intros.
  - apply veq_refl; auto.
  - apply veq_sym; auto.
  - eapply (veq_trans (e_key a) (e_key b)); eauto.
  - apply vhash_compat; auto.
  - apply vhash_range; auto.
Qed.

Definition mel (m : gomap) : list entry := tel (m_tree m).
Definition mok (m : gomap) : Prop := tok eok (m_tree m).

(** The entry for a key, and its value. *)
Definition klk (l : list entry) (k : X) : option entry := find (fun e => veq (e_key e) k) l.
Definition mget (m : gomap) (k : X) : option V := option_map e_val (klk (mel m) k).

Lemma klk_lookup l k v : lookup l (mkEntry k v) = klk l k.
Proof. reflexivity. Qed.
Lemma klk_Some l k e : klk l k = Some e -> In e l /\ veq (e_key e) k = true.
Proof. apply find_some. Qed.

Lemma mok_empty : mok m_empty.
Proof. apply tok_empty. Qed.
Lemma mok_allok m : mok m -> allok eok (mel m).
Proof. apply tok_allok. Qed.
Lemma mok_distinct m : mok m -> distinct (mel m).
Proof. apply tok_distinct. Qed.

Lemma m_count_ok m : mok m -> m_count m = Z.of_nat (length (mel m)).
Proof. apply tok_count. Qed.
Lemma m_isEmpty_ok m : mok m -> m_isEmpty m = match mel m with [] => true | _ => false end.
Proof.
  intros H. unfold m_isEmpty. fold (m_count m). rewrite (m_count_ok m H). destruct (mel m); simpl; auto.
Qed.

(** Membership of an entry in terms of [mget]. *)
Lemma klk_iff m k e : mok m -> kok k -> klk (mel m) k = Some e <-> In e (mel m) /\ veq (e_key e) k = true.
Proof.
  intros Hm Hk.
  exact (lookup_iff (vok := eok) (mel m) (mkEntry k (e_val e)) e (mok_distinct m Hm) (mok_allok m Hm) Hk).
Qed.

Lemma m_get_ok m k : mok m -> kok k -> m_get m k = Ok (mget m k).
Proof.
  intros Hm Hk. unfold m_get, newMapKey. rewrite (t_get_ok (vok := eok)); auto.
Qed.

Lemma m_with_ok m k v : mok m -> kok k ->
  exists r, m_with m k v = Ok r /\ mok r /\
    (forall j, kok j -> klk (mel r) j = if veq k j then Some (mkEntry k v) else klk (mel m) j) /\
    m_count r = (m_count m + if isSome (mget m k) then 0 else 1)%Z.
Proof.
  intros Hm Hk. unfold m_with, newMapEntry.
  destruct (t_with_ok (vok := eok) (m_tree m) (mkEntry k v) Hm Hk) as (r & -> & Hr & Hl & Hc).
  exists (mkMap r). split; auto. split; auto. split.
  - intros j Hj. apply (Hl (mkEntry j v) Hj).
  - unfold m_count. cbn [m_tree]. rewrite Hc. rewrite klk_lookup. fold (mel m). unfold mget. destruct (klk (mel m) k); auto.
Qed.

Lemma m_without_ok m k : mok m -> kok k ->
  exists r, m_without m k = Ok r /\ mok r /\
    (forall j, kok j -> klk (mel r) j = if veq k j then None else klk (mel m) j) /\
    m_count r = (m_count m - if isSome (mget m k) then 1 else 0)%Z.
Proof.
  intros Hm Hk. unfold m_without, newMapKey.
  destruct (t_without_ok (vok := eok) (m_tree m) (mkEntry k zero) Hm Hk) as (r & -> & Hr & Hl & Hc).
  exists (mkMap r). split; auto. split; auto. split.
  - intros j Hj. apply (Hl (mkEntry j zero) Hj).
  - unfold m_count. cbn [m_tree]. rewrite Hc. rewrite klk_lookup. fold (mel m). unfold mget. destruct (klk (mel m) k); auto.
Qed.

(** ** Iteration *)

Definition pair_of (e : entry) : X * V := (e_key e, e_val e).

Lemma mi_next_ok it : iok (vok := eok) 0 (mi_i it) ->
  exists b it', mi_next it = Ok (b, it') /\ iok (vok := eok) 0 (mi_i it') /\
    match remaining (mi_i it) with
    | [] => b = false /\ remaining (mi_i it') = []
    | e :: es => b = true /\ remaining (mi_i it') = es /\ mi_entry it' = Some (pair_of e)
    end.
Proof.
  intros H. unfold mi_next. destruct (i_next_ok (vok := eok) _ H) as (b & i' & E1 & Hi & Hn).
  rewrite E1. cbn [bind]. destruct (remaining (mi_i it)) as [|e es].
  - destruct Hn as [-> Hn]. eexists false, _. split; [reflexivity|]. auto.
  - destruct Hn as (-> & Hn & Hv). rewrite Hv. cbn [bind]. eexists true, _. split; [reflexivity|]. auto.
Qed.

Lemma mi_drain_ok fuel : forall it, iok (vok := eok) 0 (mi_i it) -> length (remaining (mi_i it)) < fuel ->
  mi_drain fuel it = Ok (map pair_of (remaining (mi_i it))).
Proof.
  induction fuel as [|fuel IH]; intros it Hi Hf; [lia|]. cbn [mi_drain].
  destruct (mi_next_ok it Hi) as (b & it' & E1 & Hi' & Hn). rewrite E1. cbn [bind].
  destruct (remaining (mi_i it)) as [|e es].
  - destruct Hn as [-> _]. reflexivity.
  - destruct Hn as (-> & Hn & ->). rewrite (IH it' Hi') by (rewrite Hn; simpl in Hf; lia).
    cbn [bind]. rewrite Hn. reflexivity.
Qed.

Lemma m_range_ok m : mok m -> iok (vok := eok) 0 (mi_i (m_range m)) /\ remaining (mi_i (m_range m)) = mel m.
Proof. intros H. exact (range_iok (vok := eok) (mkSet (m_tree m)) H). Qed.

Lemma m_entries_ok m : mok m -> m_entries m = Ok (map pair_of (mel m)).
Proof.
  intros H. unfold m_entries. destruct (m_range_ok m H) as [Hi Hr]. rewrite mi_drain_ok; auto.
  - rewrite Hr. reflexivity.
  - rewrite Hr. unfold mel, tel. lia.
Qed.

Lemma m_any_ok m : mok m -> m_any m = match mel m with [] => Panic | e :: _ => Ok (pair_of e) end.
Proof.
  intros H. unfold m_any. destruct (m_range_ok m H) as [Hi Hr].
  destruct (mi_next_ok _ Hi) as (b & it' & E1 & Hi' & Hn). rewrite E1. cbn [bind]. rewrite Hr in Hn.
  destruct (mel m) as [|e es]; destruct Hn as [-> Hn]; auto. destruct Hn as [_ ->]. reflexivity.
Qed.

(** ** Builder *)

Definition mbel (b : mapBuilder X V) : list entry := tel (mb_tree b).
Definition mbok (b : mapBuilder X V) : Prop := tok eok (mb_tree b).

Lemma mbok_empty : mbok (mkMB emptyTree).
Proof. apply tok_empty. Qed.

Lemma mb_put_ok b k v : mbok b -> kok k ->
  exists r, mb_put b k v = Ok r /\ mbok r /\
    (forall j, kok j -> klk (mbel r) j = if veq k j then Some (mkEntry k v) else klk (mbel b) j) /\
    mb_count r = (mb_count b + if isSome (klk (mbel b) k) then 0 else 1)%Z.
Proof.
  intros Hm Hk. unfold mb_put, newMapEntry.
  destruct (b_add_ok (vok := eok) (mb_tree b) (mkEntry k v) Hm Hk) as (r & -> & Hr & Hl & Hc).
  exists (mkMB r). split; auto. split; auto. split; auto.
  intros j Hj. apply (Hl (mkEntry j v) Hj).
Qed.

Lemma mb_remove_ok b k : mbok b -> kok k ->
  exists r, mb_remove b k = Ok r /\ mbok r /\
    (forall j, kok j -> klk (mbel r) j = if veq k j then None else klk (mbel b) j) /\
    mb_count r = (mb_count b - if isSome (klk (mbel b) k) then 1 else 0)%Z.
Proof.
  intros Hm Hk. unfold mb_remove, newMapKey.
  destruct (b_remove_ok (vok := eok) (mb_tree b) (mkEntry k zero) Hm Hk) as (r & -> & Hr & Hl & Hc).
  exists (mkMB r). split; auto. split; auto. split; auto.
  intros j Hj. apply (Hl (mkEntry j zero) Hj).
Qed.

Lemma mb_get_ok b k : mbok b -> kok k -> mb_get b k = Ok (option_map e_val (klk (mbel b) k)).
Proof.
  intros Hm Hk. unfold mb_get, b_get, newMapKey. rewrite (t_get_ok (vok := eok)); auto.
Qed.

(** The last entry for a key in a list of entries to be put. *)
Definition klast (l : list entry) (k : X) : option entry := klk (rev l) k.

Lemma mb_fold_ok {A} (f : A -> option entry) (step : mapBuilder X V -> A -> res (mapBuilder X V)) l :
  (forall b a, In a l -> mbok b -> step b a = match f a with Some e => mb_put b (e_key e) (e_val e) | None => Ok b end) ->
  (forall a e, In a l -> f a = Some e -> eok e) ->
  forall b, mbok b ->
  exists r, foldM step b l = Ok r /\ mbok r /\
    (forall j, kok j -> klk (mbel r) j =
       match klast (flat_map (fun a => match f a with Some e => [e] | None => [] end) l) j with
       | Some e => Some e | None => klk (mbel b) j end).
Proof.
  induction l as [|a l IH]; intros Hstep Hf b Hb; cbn [foldM].
  - exists b. split; auto.
  - rewrite Hstep by (auto; left; auto).
    assert (HA : exists b1, match f a with Some e => mb_put b (e_key e) (e_val e) | None => Ok b end = Ok b1 /\ mbok b1 /\
      (forall j, kok j -> klk (mbel b1) j =
         match klk (match f a with Some e => [e] | None => [] end) j with Some e => Some e | None => klk (mbel b) j end)).
    { destruct (f a) as [e|] eqn:Ef.
      - destruct (mb_put_ok b (e_key e) (e_val e) Hb) as (b1 & E1 & Hb1 & Hl & _).
        { apply (Hf a); auto. left; auto. }
        exists b1. split; auto. split; auto. intros j Hj. rewrite Hl by auto. unfold klk at 2. cbn [find].
        destruct (veq (e_key e) j); auto. destruct e; auto.
      - exists b. auto. }
    destruct HA as (b1 & E1 & Hb1 & Hl1). rewrite E1. cbn [bind].
    destruct (IH (fun b a' H => Hstep b a' (or_intror H)) (fun a' e H => Hf a' e (or_intror H)) b1 Hb1) as (r & E2 & Hr & Hl).
    exists r. split; auto. split; auto. intros j Hj. rewrite Hl by auto. cbn [flat_map].
    unfold klast. rewrite rev_app_distr. unfold klk at 3. rewrite find_app. fold (klk (rev (flat_map (fun a0 => match f a0 with Some e => [e] | None => [] end) l)) j).
    destruct (klk (rev (flat_map _ l)) j); auto. rewrite Hl1 by auto.
    destruct (f a); auto.
Qed.

Lemma mb_putAll_ok l b : mbok b -> (forall kv, In kv l -> kok (fst kv)) ->
  exists r, mb_putAll b l = Ok r /\ mbok r /\
    (forall j, kok j -> klk (mbel r) j =
       match klast (map (fun kv => mkEntry (fst kv) (snd kv)) l) j with Some e => Some e | None => klk (mbel b) j end).
Proof.
  intros Hb Hl. unfold mb_putAll.
  destruct (mb_fold_ok (fun kv => Some (mkEntry (fst kv) (snd kv))) (fun b kv => mb_put b (fst kv) (snd kv)) l) with (b := b)
    as (r & E1 & Hr & HR); auto.
  { intros a e Ha He. injection He as <-. apply (Hl a Ha). }
  exists r. split; auto.
Qed.

Lemma klast_Some l k e : klast l k = Some e -> In e l /\ veq (e_key e) k = true.
Proof. unfold klast. intros H. apply klk_Some in H as [H1 H2]. apply in_rev in H1. auto. Qed.

Lemma klast_distinct l k : distinct l -> allok eok l -> kok k -> klast l k = klk l k.
Proof.
  intros Hd Ho Hk. exact (findLast_distinct (vok := eok) l (mkEntry k zero) Hd Ho Hk).
Qed.

(** A finished builder as a map. *)
Lemma mb_finish_ok b : mbok b -> mok (fst (mb_finish b)) /\ mel (fst (mb_finish b)) = mbel b.
Proof. intros H. split; auto. Qed.

Lemma m_new_ok kvs : (forall kv, In kv kvs -> kok (kv_key kv)) ->
  exists r, m_new kvs = Ok r /\ mok r /\
    (forall j, kok j -> klk (mel r) j = klast (map (fun kv => mkEntry (kv_key kv) (kv_val kv)) kvs) j).
Proof.
  intros Hk. unfold m_new.
  destruct (mb_fold_ok (fun kv => Some (mkEntry (kv_key kv) (kv_val kv))) (fun b kv => mb_put b (kv_key kv) (kv_val kv)) kvs)
    with (b := @newMapBuilder X V (Z.of_nat (length kvs))) as (r & E1 & Hr & HR); auto using mbok_empty.
  { intros a e Ha He. injection He as <-. apply (Hk a Ha). }
  rewrite E1. cbn [bind]. exists (fst (mb_finish r)). split; auto. split; auto.
  intros j Hj. rewrite (proj2 (mb_finish_ok r Hr)), HR by auto.
  replace (flat_map (fun a : keyValue X V => [mkEntry (kv_key a) (kv_val a)]) kvs)
    with (map (fun kv : keyValue X V => mkEntry (kv_key kv) (kv_val kv)) kvs).
  - destruct (klast _ j); auto.
  - clear. induction kvs; simpl; congruence.
Qed.

Lemma m_fromGoMap_ok g : (forall kv, In kv g -> kok (fst kv)) ->
  exists r, m_fromGoMap g = Ok r /\ mok r /\
    (forall j, kok j -> klk (mel r) j = klast (map (fun kv => mkEntry (fst kv) (snd kv)) g) j).
Proof.
  intros Hk. unfold m_fromGoMap.
  destruct (mb_putAll_ok g (newMapBuilder (Z.of_nat (length g))) mbok_empty Hk) as (r & E1 & Hr & HR).
  rewrite E1. cbn [bind]. exists (fst (mb_finish r)). split; auto. split; auto.
  intros j Hj. rewrite (proj2 (mb_finish_ok r Hr)), HR by auto. destruct (klast _ j); auto.
Qed.

Lemma m_fromKeys_ok s (f : X -> V) : sok kok s ->
  exists r, m_fromKeys s f = Ok r /\ mok r /\
    (forall j, kok j -> klk (mel r) j = option_map (fun k => mkEntry k (f k)) (lookup (sel s) j)).
Proof.
  intros Hs. unfold m_fromKeys. rewrite (s_elements_ok (vok := kok)) by auto. cbn [bind].
  pose proof (sok_allok s Hs) as Ho. pose proof (sok_distinct s Hs) as Hd.
  destruct (mb_fold_ok (fun k => Some (mkEntry k (f k))) (fun b k => mb_put b k (f k)) (sel s))
    with (b := @newMapBuilder X V (s_count s)) as (r & E1 & Hr & HR); auto.
  { intros a e Ha He. injection He as <-. apply (Ho a Ha). }
  { apply mbok_empty. }
  rewrite E1. cbn [bind]. exists (fst (mb_finish r)). split; auto. split; auto.
  intros j Hj. rewrite (proj2 (mb_finish_ok r Hr)), HR by auto.
  replace (flat_map (fun a => [mkEntry a (f a)]) (sel s)) with (map (fun k => mkEntry k (f k)) (sel s)).
  2:{ generalize (sel s). clear. induction l; simpl; congruence. }
  rewrite klast_distinct; auto.
  - assert (HK : klk (map (fun k => mkEntry k (f k)) (sel s)) j = option_map (fun k => mkEntry k (f k)) (lookup (sel s) j)).
    { generalize (sel s). clear. induction l as [|a l IH]; simpl; auto. unfold klk, lookup in *. simpl. destruct (veq a j); auto. }
    rewrite HK. destruct (lookup (sel s) j); auto.
  - clear - Hd. induction Hd as [|a l Ha Hd IH]; simpl; constructor; auto.
    intros e He. apply in_map_iff in He as (b & <- & Hb). cbn. auto.
  - intros e He. apply in_map_iff in He as (b & <- & Hb). apply (Ho b Hb).
Qed.

Lemma m_where_ok m pred : mok m ->
  exists r, m_where m pred = Ok r /\ mok r /\
    (forall j, kok j -> klk (mel r) j =
       match klk (mel m) j with Some e => if pred (e_key e) (e_val e) then Some e else None | None => None end).
Proof.
  intros Hm. unfold m_where. rewrite m_entries_ok by auto. cbn [bind].
  pose proof (mok_allok m Hm) as Ho. pose proof (mok_distinct m Hm) as Hd.
  destruct (mb_fold_ok (fun kv => if pred (fst kv) (snd kv) then Some (mkEntry (fst kv) (snd kv)) else None)
    (fun b kv => if pred (fst kv) (snd kv) then mb_put b (fst kv) (snd kv) else Ok b) (map pair_of (mel m)))
    with (b := @mkMB X V emptyTree) as (r & E1 & Hr & HR).
  { intros b a _ _. destruct (pred (fst a) (snd a)); auto. }
  { intros a e Ha He. apply in_map_iff in Ha as (e' & <- & He'). destruct (pred _ _); [|discriminate].
    injection He as <-. apply (Ho e' He'). }
  { apply mbok_empty. }
  rewrite E1. cbn [bind]. exists (fst (mb_finish r)). split; auto. split; auto.
  intros j Hj. rewrite (proj2 (mb_finish_ok r Hr)), HR by auto.
  replace (flat_map _ (map pair_of (mel m))) with (filter (fun e => pred (e_key e) (e_val e)) (mel m)).
  2:{ generalize (mel m). clear. induction l as [|e l IH]; simpl; auto. destruct e as [k v]. simpl.
      destruct (pred k v); simpl; congruence. }
  pose proof (distinct_filter (fun e => pred (e_key e) (e_val e)) (mel m) Hd) as Hdf.
  pose proof (allok_filter (vok := eok) (fun e => pred (e_key e) (e_val e)) (mel m) Ho) as Hof.
  rewrite klast_distinct by auto.
  destruct (klk (mel m) j) as [e|] eqn:Ek.
  - apply klk_Some in Ek as [He Hq]. destruct (pred (e_key e) (e_val e)) eqn:Ep.
    + assert (klk (filter (fun e => pred (e_key e) (e_val e)) (mel m)) j = Some e) as ->; auto.
      refine (proj2 (lookup_iff (vok := eok) (filter (fun e => pred (e_key e) (e_val e)) (mel m)) (mkEntry j (e_val e)) e _ _ _) _); auto.
      split; auto. apply filter_In. auto.
    + destruct (klk (filter (fun e => pred (e_key e) (e_val e)) (mel m)) j) as [f|] eqn:Ef; auto. exfalso.
      apply klk_Some in Ef as [Hf Hqf]. apply filter_In in Hf as [Hf Hpf].
      assert (klk (mel m) j = Some e) by (apply klk_iff; auto).
      assert (klk (mel m) j = Some f) by (apply klk_iff; auto). congruence.
  - destruct (klk (filter (fun e => pred (e_key e) (e_val e)) (mel m)) j) as [f|] eqn:Ef; auto. exfalso.
    apply klk_Some in Ef as [Hf Hqf]. apply filter_In in Hf as [Hf Hpf].
    assert (klk (mel m) j = Some f) by (apply klk_iff; auto). congruence.
Qed.

Lemma klast_None l k : klast l k = None <-> forall e, In e l -> veq (e_key e) k = false.
Proof. exact (findLast_None l (mkEntry k zero)). Qed.

Lemma m_project_ok m keys : mok m -> (forall k, In k keys -> kok k) ->
  exists r, m_project m keys = Ok r /\ mok r /\
    (forall j, kok j -> mget r j = if existsb (fun k => veq k j) keys then mget m j else None).
Proof.
  intros Hm Hks. unfold m_project.
  destruct (mb_fold_ok (fun k => option_map (mkEntry k) (mget m k))
    (fun b k => o <- m_get m k ;; match o with Some v => mb_put b k v | None => Ok b end) keys)
    with (b := @mkMB X V emptyTree) as (r & E1 & Hr & HR).
  { intros b a Ha _. rewrite m_get_ok by auto. cbn [bind]. destruct (mget m a); auto. }
  { intros a e Ha He. destruct (mget m a); [|discriminate]. injection He as <-. apply (Hks a Ha). }
  { apply mbok_empty. }
  rewrite E1. cbn [bind]. exists (fst (mb_finish r)). split; auto. split; auto.
  intros j Hj. unfold mget at 1. rewrite (proj2 (mb_finish_ok r Hr)), HR by auto.
  assert (Hcong : forall k, kok k -> veq k j = true -> mget m k = mget m j).
  { intros k Hk Hq. unfold mget. f_equal.
    exact (lookup_veq (vok := eok) (mel m) (mkEntry k zero) (mkEntry j zero) (mok_allok m Hm) Hk Hj Hq). }
  set (l := flat_map _ keys).
  assert (Hin : forall e, In e l <-> exists k v, In k keys /\ mget m k = Some v /\ e = mkEntry k v).
  { intros e. unfold l. rewrite in_flat_map. split.
    - intros (k & Hk & He). destruct (mget m k) as [v|] eqn:Ev; [|destruct He]. destruct He as [<-|[]]. eauto.
    - intros (k & v & Hk & Hv & ->). exists k. split; auto. rewrite Hv. left; auto. }
  destruct (existsb (fun k => veq k j) keys) eqn:Ex.
  - apply existsb_exists in Ex as (k & Hk & Hq). destruct (mget m j) as [v|] eqn:Ev.
    + destruct (klast l j) as [e|] eqn:El.
      * apply klast_Some in El as [He Hqe]. apply Hin in He as (k' & v' & Hk' & Hv' & ->). cbn in *.
        rewrite (Hcong k') in Hv' by auto. congruence.
      * exfalso. apply klast_None with (e := mkEntry k v) in El; [cbn in El; congruence|].
        apply Hin. exists k, v. rewrite (Hcong k) by auto. auto.
    + destruct (klast l j) as [e|] eqn:El; auto. exfalso.
      apply klast_Some in El as [He Hqe]. apply Hin in He as (k' & v' & Hk' & Hv' & ->). cbn in *.
      rewrite (Hcong k') in Hv' by auto. congruence.
  - destruct (klast l j) as [e|] eqn:El; auto. exfalso.
    apply klast_Some in El as [He Hqe]. apply Hin in He as (k' & v' & Hk' & Hv' & ->). cbn in *.
    assert (existsb (fun k => veq k j) keys = true); [|congruence]. apply existsb_exists. eauto.
Qed.

(** ** Merge, Update *)

Definition mclash (m n : gomap) : Prop := tclash (m_tree m) (m_tree n).

Lemma m_merge_ok m n resolve : mok m -> mok n ->
  (mclash m n /\ m_merge m n resolve = Panic) \/
  (~ mclash m n /\ exists r, m_merge m n resolve = Ok r /\ mok r /\
    (forall j, kok j -> klk (mel r) j =
       match klk (mel m) j, klk (mel n) j with
       | Some a, Some b => Some (mkEntry (e_key a) (resolve (e_key a) (e_val a) (e_val b)))
       | Some a, None => Some a
       | None, o => o
       end)).
Proof.
  intros Hm Hn. unfold m_merge.
  destruct (t_combine_ok (vok := eok)
    (mkCombineArgs (newGauge (m_count m)) veq (fun a b => newMapEntry (e_key a) (resolve (e_key a) (e_val a) (e_val b))))
    (m_tree m) (m_tree n)) as [[HC E1]|(HC & r & E1 & Hr & Hl)]; auto.
  - intros a b Ha Hb Hq. split; auto.
  - left. rewrite E1. auto.
  - right. split; auto. rewrite E1. exists (mkMap r). split; auto. split; auto.
    intros j Hj. apply (Hl (mkEntry j zero) Hj).
Qed.

Lemma m_update_ok m n : mok m -> mok n ->
  (mclash m n /\ m_update m n = Panic) \/
  (~ mclash m n /\ exists r, m_update m n = Ok r /\ mok r /\
    (forall j, kok j -> klk (mel r) j =
       match klk (mel n) j with Some b => Some b | None => klk (mel m) j end)).
Proof.
  intros Hm Hn. unfold m_update. destruct (Z.ltb_spec (m_count n) (m_count m)).
  - destruct (t_combine_ok (vok := eok) (mkCombineArgs (newGauge (m_count n)) veq useLHS) (m_tree n) (m_tree m))
      as [[HC E1]|(HC & r & E1 & Hr & Hl)]; auto.
    + apply cfok_lhs.
    + left. rewrite E1. split; auto. apply tclash_sym; auto.
    + right. split; [intros HD; apply HC, tclash_sym; auto|]. rewrite E1. exists (mkMap r). split; auto. split; auto.
      intros j Hj. pose proof (Hl (mkEntry j zero) Hj) as HL. unfold comb in HL. rewrite !klk_lookup in HL.
      unfold mel in *. cbn [m_tree] in *. rewrite HL. unfold useLHS. cbn [c_f].
      destruct (klk (tel (m_tree n)) j), (klk (tel (m_tree m)) j); auto.
  - destruct (t_combine_ok (vok := eok) (mkCombineArgs (newGauge (m_count m)) veq useRHS) (m_tree m) (m_tree n))
      as [[HC E1]|(HC & r & E1 & Hr & Hl)]; auto.
    + apply cfok_rhs.
    + left. rewrite E1. split; auto.
    + right. split; auto. rewrite E1. exists (mkMap r). split; auto. split; auto.
      intros j Hj. pose proof (Hl (mkEntry j zero) Hj) as HL. unfold comb in HL. rewrite !klk_lookup in HL.
      unfold mel in *. cbn [m_tree] in *. rewrite HL. unfold useRHS. cbn [c_f].
      destruct (klk (tel (m_tree n)) j), (klk (tel (m_tree m)) j); auto.
Qed.

(** ** Equal, Hash *)

(** The same keys with equal values. *)
Definition meqv {KV : Key V} (m n : gomap) : Prop := forall k, kok k ->
  match mget m k, mget n k with
  | Some a, Some b => veq a b = true
  | None, None => True
  | _, _ => False
  end.

Lemma m_equal_ok {KV : Key V} m n : mok m -> mok n ->
  exists b, m_equal m n = Ok b /\ (b = true <-> meqv m n).
Proof.
  intros Hm Hn. unfold m_equal.
  destruct (t_equal_ok (vok := eok) (newGauge (m_count m)) mapEntryEqual (m_tree m) (m_tree n)) as (b & E1 & Hb); auto.
  { intros x y _ _ H. unfold mapEntryEqual in H. apply andb_true_iff in H. apply H. }
  exists b. split; auto. rewrite Hb. fold (mel m) (mel n).
  pose proof (mok_allok m Hm) as Hom. pose proof (mok_allok n Hn) as Hon. split.
  - intros [H1 H2] k Hk. unfold mget. destruct (klk (mel m) k) as [e|] eqn:Em.
    + apply klk_Some in Em as [He Hq]. destruct (H1 e He) as (f & Hf & Hef).
      unfold mapEntryEqual in Hef. apply andb_true_iff in Hef as [Hk1 Hv1].
      assert (klk (mel n) k = Some f) as ->.
      { apply klk_iff; auto. split; auto. pose proof (Hom e He). pose proof (Hon f Hf).
        apply (veq_trans (e_key f) (e_key e) k); auto. apply veq_sym; auto. }
      exact Hv1.
    + destruct (klk (mel n) k) as [f|] eqn:En; [|exact I]. simpl.
      apply klk_Some in En as [Hf Hq]. destruct (H2 f Hf) as (e & He & Hef).
      unfold mapEntryEqual in Hef. apply andb_true_iff in Hef as [Hk1 Hv1].
      assert (klk (mel m) k = Some e); [|congruence].
      apply klk_iff; auto. split; auto. pose proof (Hom e He). pose proof (Hon f Hf).
      apply (veq_trans (e_key e) (e_key f) k); auto.
  - intros H. split.
    + intros e He. pose proof (Hom e He) as Hke. specialize (H (e_key e) Hke). unfold mget in H.
      assert (klk (mel m) (e_key e) = Some e) as Em by (apply klk_iff; auto; split; auto; apply veq_refl; auto).
      rewrite Em in H. simpl in H. destruct (klk (mel n) (e_key e)) as [f|] eqn:En; [|destruct H]. simpl in H.
      apply klk_Some in En as [Hf Hq]. exists f. split; auto. unfold mapEntryEqual. rewrite H, andb_true_r.
      apply veq_sym; auto. apply (Hon f Hf).
    + intros f Hf. pose proof (Hon f Hf) as Hkf. specialize (H (e_key f) Hkf). unfold mget in H.
      assert (klk (mel n) (e_key f) = Some f) as En by (apply klk_iff; auto; split; auto; apply veq_refl; auto).
      rewrite En in H. simpl in H. destruct (klk (mel m) (e_key f)) as [e|] eqn:Em; [|destruct H]. simpl in H.
      apply klk_Some in Em as [He Hq]. exists e. split; auto. unfold mapEntryEqual. rewrite H, andb_true_r. auto.
Qed.

Definition mhashOf {KV : Key V} (seed : N) (l : list entry) : N :=
  N.lxor (wrap 64 (env_uintptr 3167960924819262823%N seed))
         (fold_right (fun e acc => N.lxor (vhash (e_val e) (vhash (e_key e) seed)) acc) 0%N l).

Lemma m_hash_ok {KV : Key V} m seed : mok m -> m_hash m seed = Ok (mhashOf seed (mel m)).
Proof.
  intros H. unfold m_hash. rewrite m_entries_ok by auto. cbn [bind].
  rewrite (fold_lxor_acc (fun kv : X * V => vhash (snd kv) (vhash (fst kv) seed))). unfold mhashOf. do 2 f_equal.
  induction (mel m) as [|e l IH]; simpl; congruence.
Qed.

(** The values of a map are valid. *)
Definition vals_ok (valok : V -> Prop) (m : gomap) : Prop := forall e, In e (mel m) -> valok (e_val e).

Lemma mhashOf_meqv {KV : Key V} {valok} {KVO : KeyOk KV valok} m n seed : mok m -> mok n ->
  vals_ok valok m -> vals_ok valok n -> meqv m n ->
  mhashOf seed (mel m) = mhashOf seed (mel n).
Proof.
  intros Hm Hn Hvm Hvn H. unfold mhashOf. f_equal.
  pose proof (mok_distinct m Hm) as Hdm. pose proof (mok_distinct n Hn) as Hdn.
  pose proof (mok_allok m Hm) as Hom. pose proof (mok_allok n Hn) as Hon.
  set (h := fun e : entry => vhash (e_val e) (vhash (e_key e) seed)).
  assert (HF : forall l : list entry, fold_right (fun e acc => N.lxor (h e) acc) 0%N l =
     fold_right (fun x acc => N.lxor x acc) 0%N (map h l)).
  { induction l; simpl; congruence. }
  change (fold_right (fun e acc => N.lxor (h e) acc) 0%N (mel m) = fold_right (fun e acc => N.lxor (h e) acc) 0%N (mel n)).
  rewrite !HF. apply (fold_lxor_perm (fun x => x)).
  (* every entry of m has a partner in n with the same hash *)
  assert (HG : forall l1 l2 : list entry, distinct l1 -> distinct l2 -> allok eok l1 -> allok eok l2 ->
     (forall e, In e l1 -> valok (e_val e)) -> (forall e, In e l2 -> valok (e_val e)) ->
     (forall k, kok k -> match option_map e_val (klk l1 k), option_map e_val (klk l2 k) with
        | Some a, Some b => veq a b = true | None, None => True | _, _ => False end) ->
     Permutation (map h l1) (map h l2)).
  { clear m n Hm Hn Hvm Hvn H Hdm Hdn Hom Hon HF.
    induction l1 as [|a l1 IH]; intros l2 Hd1 Hd2 Ho1 Ho2 Hv1 Hv2 H.
    - destruct l2 as [|b l2]; auto. exfalso. assert (Hb : eok b) by (apply Ho2; left; auto).
      specialize (H (e_key b) Hb). cbn in H. unfold klk in H. cbn in H. rewrite veq_refl in H; auto.
    - assert (Ha : eok a) by (apply Ho1; left; auto).
      pose proof (H (e_key a) Ha) as Hx. unfold klk at 1 in Hx. cbn [find] in Hx. rewrite veq_refl in Hx by auto. cbn [option_map] in Hx.
      destruct (klk l2 (e_key a)) as [b|] eqn:Eb; [|destruct Hx]. cbn [option_map] in Hx.
      apply klk_Some in Eb as [Hb Hq]. assert (Hbo : eok b) by auto. assert (Hbv : valok (e_val b)) by auto.
      apply in_split in Hb as (l3 & l4 & ->). rewrite map_app. cbn [map].
      assert (h b = h a) as ->.
      { unfold h. rewrite (vhash_compat (e_key b) (e_key a)) by auto. symmetry. apply vhash_compat; auto.
        apply Hv1; left; auto. }
      apply Permutation_cons_app. rewrite <- map_app. apply IH; auto.
      + inversion Hd1; auto.
      + eapply distinct_split; eauto.
      + eapply allok_tl; eauto.
      + eapply (allok_split (vok := eok)); eauto.
      + intros e He. apply Hv1; right; auto.
      + intros e He. apply Hv2. apply in_app_or in He as [He|He]; apply in_or_app; auto. right; right; auto.
      + intros k Hk. specialize (H k Hk).
        pose proof (lookup_split (vok := eok) [] a l1 a (mkEntry k zero) Hd1 Ho1 Ha Hk (veq_refl (e_key a) Ha)) as E1. cbn [app] in E1.
        pose proof (lookup_split (vok := eok) l3 b l4 a (mkEntry k zero) Hd2 Ho2 Ha Hk Hq) as E2.
        rewrite !klk_lookup in E1, E2. rewrite E1, E2. unfold rmv.
        destruct (veq a (mkEntry k zero)); [exact I|]. exact H. }
  apply HG; auto.
Qed.

(** ** Keys, Values *)

Lemma m_keys_ok m : mok m ->
  exists r, m_keys m = Ok r /\ sok kok r /\
    (forall w, kok w -> lookup (sel r) w = option_map e_key (klk (mel m) w)).
Proof.
  intros Hm. unfold m_keys. rewrite m_entries_ok by auto. cbn [bind].
  pose proof (mok_allok m Hm) as Ho. pose proof (mok_distinct m Hm) as Hd.
  destruct (sb_addMap_ok (vok := kok) (fun kv : X * V => fst kv) (map pair_of (mel m)) (mkSB emptyTree)) as (r & E1 & Hr & HR).
  { apply bok_empty. }
  { intros v Hv. apply in_map_iff in Hv as (e & <- & He). apply (Ho e He). }
  rewrite E1. cbn [bind]. exists (fst (sb_finish r)). split; auto. split; auto.
  intros w Hw. change (sel (fst (sb_finish r))) with (bel r). rewrite HR by auto.
  rewrite map_map. cbn.
  assert (HK : findLast (map (fun e => e_key e) (mel m)) w = option_map e_key (klk (mel m) w)).
  { rewrite (findLast_distinct (vok := kok)); auto.
    - generalize (mel m). clear. induction l as [|e l IH]; simpl; auto. unfold lookup, klk in *. simpl. destruct (veq (e_key e) w); auto.
    - clear - Hd. induction Hd as [|a l Ha Hd IH]; simpl; constructor; auto.
      intros e He. apply in_map_iff in He as (b & <- & Hb). apply (Ha b Hb).
    - intros e He. apply in_map_iff in He as (b & <- & Hb). apply (Ho b Hb). }
  rewrite HK. destruct (klk (mel m) w); auto.
Qed.

Lemma m_values_ok {KV : Key V} {valok} {KVO : KeyOk KV valok} m : mok m -> vals_ok valok m ->
  exists r, m_values m = Ok r /\ sok valok r /\
    (forall w, valok w -> lookup (sel r) w <> None <-> exists e, In e (mel m) /\ veq (e_val e) w = true).
Proof.
  intros Hm Hv. unfold m_values. rewrite m_entries_ok by auto. cbn [bind].
  destruct (sb_addMap_ok (vok := valok) (fun kv : X * V => snd kv) (map pair_of (mel m)) (mkSB emptyTree)) as (r & E1 & Hr & HR).
  { apply bok_empty. }
  { intros v Hi. apply in_map_iff in Hi as (e & <- & He). apply (Hv e He). }
  rewrite E1. cbn [bind]. exists (fst (sb_finish r)). split; auto. split; auto.
  intros w Hw. change (sel (fst (sb_finish r))) with (bel r). rewrite HR by auto.
  rewrite map_map. cbn. destruct (findLast (map (fun e => e_val e) (mel m)) w) as [x|] eqn:Ef.
  - split; [intros _|discriminate]. apply findLast_Some in Ef as [Hx Hq]. apply in_map_iff in Hx as (e & <- & He). eauto.
  - split; [congruence|]. intros (e & He & Hq).
    pose proof (proj1 (findLast_None _ _) Ef (e_val e) (in_map _ _ _ He)). congruence.
Qed.

(** ** Go maps *)

Context (geq : X -> X -> bool) (geq_spec : forall a b, geq a b = true <-> a = b).

Lemma go_put_new (g : list (X * V)) k v : (forall kv, In kv g -> fst kv <> k) -> go_put geq g k v = g ++ [(k, v)].
Proof.
  induction g as [|[k' v'] g IH]; intros H; simpl; auto.
  destruct (geq k' k) eqn:Eg.
  - apply geq_spec in Eg. exfalso. apply (H (k', v')); [left; auto|auto].
  - rewrite IH; auto. intros kv Hkv. apply H. right; auto.
Qed.

Lemma go_puts_new (l : list (X * V)) : forall g, NoDup (map fst (g ++ l)) ->
  fold_left (fun g kv => go_put geq g (fst kv) (snd kv)) l g = g ++ l.
Proof.
  induction l as [|[k v] l IH]; intros g HN; simpl; [rewrite app_nil_r; auto|].
  rewrite go_put_new.
  - rewrite IH; rewrite <- app_assoc; auto.
  - intros kv Hkv He. rewrite map_app in HN. simpl in HN. apply NoDup_remove_2 in HN.
    apply HN. apply in_or_app. left. rewrite <- He. apply in_map. auto.
Qed.

Lemma mel_keys_NoDup m : mok m -> NoDup (map e_key (mel m)).
Proof.
  intros Hm. pose proof (mok_allok m Hm) as Ho. pose proof (mok_distinct m Hm) as Hd. clear Hm.
  induction Hd as [|a l Ha Hd IH]; simpl; constructor.
  - intros Hi. apply in_map_iff in Hi as (b & Hb & Hbl). pose proof (Ha b Hbl) as Hq. cbn in Hq.
    rewrite Hb, veq_refl in Hq; [discriminate|]. apply (Ho a). left; auto.
  - apply IH. eapply allok_tl; eauto.
Qed.

Lemma m_toGoMap_ok m : mok m -> m_toGoMap geq m = Ok (map pair_of (mel m)).
Proof.
  intros Hm. unfold m_toGoMap. rewrite m_entries_ok by auto. cbn [bind]. rewrite go_puts_new; auto.
  simpl. rewrite map_map. simpl. apply mel_keys_NoDup; auto.
Qed.
End MapFacts.

Arguments mok {E X V KX} kok _.
Arguments meqv {X V KX} kok {KV} _ _.

Section MapMap.
Local Opaque maxTreeDepth fanout fb.
Context {E : Env} {HE : EnvOk E} {X V U : Type} {KX : Key X} {kok : X -> Prop} {KO : KeyOk KX kok}.
Context {ZV : Zero V} {ZU : Zero U}.

Lemma m_map_ok m (f : X -> V -> U) : mok kok m ->
  exists r, m_map m f = Ok r /\ mok kok r /\
    (forall j, kok j -> klk (mel r) j =
       option_map (fun e => mkEntry (e_key e) (f (e_key e) (e_val e))) (klk (mel m) j)).
Proof.
  intros Hm. unfold m_map. rewrite (m_entries_ok (kok := kok)) by auto. cbn [bind].
  pose proof (mok_allok m Hm) as Ho. pose proof (mok_distinct m Hm) as Hd.
  destruct (mb_fold_ok (kok := kok) (fun kv : X * V => Some (mkEntry (fst kv) (f (fst kv) (snd kv))))
    (fun b kv => mb_put b (fst kv) (f (fst kv) (snd kv))) (map pair_of (mel m)))
    with (b := @mkMB X U emptyTree) as (r & E1 & Hr & HR); auto.
  { intros a e Ha He. injection He as <-. apply in_map_iff in Ha as (e' & <- & He'). apply (Ho e' He'). }
  { apply mbok_empty. }
  rewrite E1. cbn [bind]. exists (fst (mb_finish r)). split; auto. split; auto.
  intros j Hj. rewrite (proj2 (mb_finish_ok r Hr)), HR by auto.
  replace (flat_map _ (map pair_of (mel m))) with (map (fun e => mkEntry (e_key e) (f (e_key e) (e_val e))) (mel m)).
  2:{ generalize (mel m). clear. induction l as [|e l IH]; simpl; congruence. }
  rewrite (klast_distinct (kok := kok)); auto.
  - assert (HK : klk (map (fun e => mkEntry (e_key e) (f (e_key e) (e_val e))) (mel m)) j =
       option_map (fun e => mkEntry (e_key e) (f (e_key e) (e_val e))) (klk (mel m) j)).
    { generalize (mel m). clear. induction l as [|a l IH]; simpl; auto. unfold klk in *. simpl. destruct (veq (e_key a) j); auto. }
    rewrite HK. destruct (klk (mel m) j); auto.
  - clear - Hd. induction Hd as [|a l Ha Hd IH]; simpl; constructor; auto.
    intros e He. apply in_map_iff in He as (b & <- & Hb). apply (Ha b Hb).
  - intros e He. apply in_map_iff in He as (b & <- & Hb). apply (Ho b Hb).
Qed.
End MapMap.
