(** * SpecRep: which of several equal elements or keys is kept (C68).

    value.Equal may identify values that a program can tell apart. [Holds s e] and [Entry m k v] (Spec.v) are about the very
    value that is in the set or map. *)
From Verif Require Import Base Bits Env EnvFacts Node NodeWf NodeAdd NodeBin NodeBin2 Iter Tree TreeFacts
  SetApi SetFacts MapApi MapFacts GroupFacts Clash Reach Spec SpecSet SpecMap NodeRep.

(** [e] is in the list, and no equal value comes after it. *)
Definition LastIn {T} {K : Key T} (l : list T) (e : T) : Prop :=
  exists l1 l2, l = l1 ++ e :: l2 /\ forall x, In x l2 -> veq x e = false.

(** How many elements of the list have a hash that begins with the same [k * fb] bits as that of [v]; these are the ones that share
    a subtree with [v] after [k] levels. *)
Definition beside {E : Env} {T} {K : Key T} (k : nat) (v : T) (l : list T) : nat :=
  number (fun e => N.eqb (N.shiftr (vhash e 0) (N.of_nat (64 - k * fb))) (N.shiftr (vhash v 0) (N.of_nat (64 - k * fb)))) l.

(** After some number of levels at most two elements of [l2] are left beside [v], but three or more of [l1]. *)
Definition Sooner {E : Env} {T} {K : Key T} (l1 l2 : list T) (v : T) : Prop :=
  exists k, k * fb < 64 /\ 3 <= beside k v l1 /\ beside k v l2 <= 2.

Lemma find_rev {A} (p : A -> bool) l e :
  find p (rev l) = Some e <-> exists l1 l2, l = l1 ++ e :: l2 /\ p e = true /\ forall x, In x l2 -> p x = false.
Proof.
  split.
  - induction l as [|a l IH]; simpl; [discriminate|]. rewrite find_app. destruct (find p (rev l)) as [x|] eqn:Ef.
    + intros H. injection H as ->. destruct (IH eq_refl) as (l1 & l2 & -> & Hp & Hl). exists (a :: l1), l2. auto.
    + simpl. destruct (p a) eqn:Ea; [|discriminate]. intros H. injection H as <-. exists [], l. split; auto. split; auto.
      intros x Hx. apply (find_none _ _ Ef x). apply -> in_rev. auto.
  - intros (l1 & l2 & -> & Hp & Hl). rewrite rev_app_distr. simpl. rewrite <- app_assoc. rewrite find_app.
    destruct (find p (rev l2)) as [x|] eqn:Ef.
    + apply find_some in Ef as [Hx Hpx]. apply in_rev in Hx. rewrite Hl in Hpx by auto. discriminate.
    + simpl. rewrite Hp. auto.
Qed.

Section SpecRep.
Local Opaque maxTreeDepth fanout fb.
Context {E : Env} {HE : EnvOk E} {T : Type} {K : Key T} {vok : T -> Prop} {KO : KeyOk K vok}.
Implicit Types (s t r : set T) (v w e : T).

Lemma lastIn_find (l : list T) e : vok e -> find (fun x => veq x e) (rev l) = Some e <-> LastIn l e.
Proof.
  intros He. rewrite find_rev. unfold LastIn. split.
  - intros (l1 & l2 & H1 & _ & H2). eauto.
  - intros (l1 & l2 & H1 & H2). exists l1, l2. split; auto. split; auto. apply veq_refl; auto.
Qed.

Lemma sooner_Sooner (l1 l2 : list T) w : allok vok l1 -> allok vok l2 -> vok w -> sooner 0 l1 l2 w <-> Sooner l1 l2 w.
Proof.
  intros H1 H2 Hw.
  assert (HC : forall k l, k * fb < 64 -> allok vok l -> cnt (agree 0 k w) l = beside k w l).
  { intros k l Hk Hl. unfold cnt, beside, number. f_equal. apply filter_ext_in. intros e He.
    rewrite agree_shift by (try lia; apply vhash_range; auto). apply N.eqb_sym. }
  assert (HD : forall k, k < maxTreeDepth <-> k * fb < 64).
  { intros k. split; [apply lt_maxTreeDepth_bits|]. intros H. pose proof maxTreeDepth_bits. pose proof fb_pos. nia. }
  unfold sooner, Sooner. split.
  - intros (k & [_ Hk] & Ha & Hb). apply HD in Hk. rewrite !HC in * by auto. eauto.
  - intros (k & Hk & Ha & Hb). exists k. rewrite !HC by auto. apply HD in Hk. auto with arith.
Qed.

(** NewSet keeps the last of several equal arguments. *)
Lemma c68_new (vs : list T) : (forall v, In v vs -> vok v) -> exists r, s_new vs = Ok r /\ (forall e, Holds r e <-> LastIn vs e).
Proof.
  intros Hv. destruct (s_new_ok (vok := vok) vs Hv) as (r & E1 & Hr & Hl). exists r. split; auto. intros e.
  assert (HH : vok e -> Holds r e <-> LastIn vs e).
  { intros He. rewrite holds_lookup, Hl by auto. apply lastIn_find; auto. }
  split; intros H.
  - apply HH; auto. eapply holds_ok; eauto.
  - apply HH; auto. destruct H as (l1 & l2 & -> & _). apply Hv, in_elt.
Qed.

(** Intersection: of two equal elements, that of the set with fewer elements (of the receiver, if they have equally many), unless the
    other set runs thin sooner on the way to the elements. *)
Definition smaller s t : set T * set T := if (s_count t <? s_count s)%Z then (t, s) else (s, t).

Lemma Sooner_dec (l1 l2 : list T) v : {Sooner l1 l2 v} + {~ Sooner l1 l2 v}.
Proof.
  destruct (existsb (fun k => (k * fb <? 64) && (3 <=? beside k v l1) && (beside k v l2 <=? 2))%bool (seq 0 64)) eqn:Ex.
  - left. apply existsb_exists in Ex as (k & _ & H). rewrite !andb_true_iff, Nat.ltb_lt, !Nat.leb_le in H.
    exists k. tauto.
  - right. intros (k & H1 & H2 & H3). apply not_true_iff_false in Ex. apply Ex, existsb_exists. exists k.
    rewrite !andb_true_iff, Nat.ltb_lt, !Nat.leb_le, in_seq. pose proof fb_pos. split; [nia|auto].
Qed.

Lemma intersection_pair s t r a b la lb : SetReach vok s -> SetReach vok t -> s_intersection s t = Ok r ->
  s_elements (fst (smaller s t)) = Ok la -> s_elements (snd (smaller s t)) = Ok lb ->
  In a la -> In b lb -> veq a b = true ->
  (~ Sooner la lb a -> Holds r a) /\ (Sooner la lb a -> Holds r b).
Proof.
  intros Hs Ht HI Ela Elb Ha Hb Hq.
  assert (HS : forall x y, SetReach vok x -> SetReach vok y -> s_elements x = Ok la -> s_elements y = Ok lb ->
     sok vok r -> picks (vok := vok) 0 (sel x) (sel y) (sel r) -> (~ Sooner la lb a -> Holds r a) /\ (Sooner la lb a -> Holds r b)).
  { intros x y Hx Hy Ex Ey Hr HP. apply sreach_ok in Hx, Hy.
    rewrite (s_elements_ok (vok := vok)) in Ex, Ey by auto. injection Ex as Ex. injection Ey as Ey. subst la lb.
    pose proof (sok_allok x Hx) as Hox. pose proof (sok_allok y Hy) as Hoy.
    pose proof (Hox a Ha) as Hva. pose proof (Hoy b Hb) as Hvb.
    destruct (HP a a b) as [H1 H2]; auto.
    { apply (In_lookup (vok := vok)); auto. eapply sok_distinct; eauto. }
    { apply (lookup_iff (vok := vok)); auto. { eapply sok_distinct; eauto. } split; auto. apply veq_sym; auto. }
    rewrite sooner_Sooner in H1, H2 by auto. split; intros H.
    - apply holds_lookup; auto.
    - apply holds_lookup; auto. specialize (H1 H). apply lookup_Some in H1 as [H1 _].
      apply (In_lookup (vok := vok)); auto. { eapply sok_distinct; eauto. } { apply sok_allok; auto. } }
  pose proof (sreach_ok _ Hs) as Hos. pose proof (sreach_ok _ Ht) as Hot.
  assert (Hr : sok vok r).
  { destruct (s_intersection_ok (vok := vok) s t Hos Hot) as (r' & E1 & Hr & _). congruence. }
  unfold s_intersection in HI. destruct (t_intersection _ _ _) as [r0| |] eqn:EI; try discriminate. injection HI as <-.
  apply (t_intersection_picks (vok := vok)) in EI; auto.
  unfold smaller, s_count in *. revert EI Ela Elb. destruct (t_count (s_tree t) <? t_count (s_tree s))%Z; simpl; intros EI Ela Elb;
    [exact (HS t s Ht Hs Ela Elb Hr EI)|exact (HS s t Hs Ht Ela Elb Hr EI)].
Qed.

Lemma c68_intersection s t la lb : SetReach vok s -> SetReach vok t ->
  s_elements (fst (smaller s t)) = Ok la -> s_elements (snd (smaller s t)) = Ok lb ->
  exists r, s_intersection s t = Ok r /\
    (forall e, Holds r e <->
       (exists b, In e la /\ In b lb /\ veq e b = true /\ ~ Sooner la lb e) \/
       (exists a, In a la /\ In e lb /\ veq a e = true /\ Sooner la lb a)).
Proof.
  intros Hs Ht Ela Elb. pose proof (sreach_ok _ Hs) as Hos. pose proof (sreach_ok _ Ht) as Hot.
  destruct (c02_intersection s t Hs Ht) as (r & HI & HA & _). exists r. split; auto.
  assert (Hr : sok vok r).
  { destruct (s_intersection_ok (vok := vok) s t Hos Hot) as (r' & E1 & Hr & _). congruence. }
  intros e. split.
  - intros He. pose proof (holds_ok r e Hr He) as Hv.
    assert (HB : Has s e /\ Has t e).
    { destruct HA as [HA _]. destruct (HA e Hv) as (x & Hx & Hiff). apply Hiff.
      pose proof (holds_has r e Hr He) as HH. unfold Has in HH. congruence. }
    assert (HL : forall x l, sok vok x -> s_elements x = Ok l -> Has x e -> exists u, In u l /\ veq u e = true /\ vok u).
    { intros x l Hx El HH. rewrite (s_elements_ok (vok := vok)) in El by auto. injection El as <-.
      apply has_lookup in HH; auto. destruct (lookup (sel x) e) as [u|] eqn:Eu; [|congruence].
      apply lookup_Some in Eu as [H1 H2]. exists u. split; auto. split; auto. apply (sok_allok x Hx u H1). }
    assert (HX : (exists a, In a la /\ veq a e = true /\ vok a) /\ (exists b, In b lb /\ veq b e = true /\ vok b)).
    { destruct HB as [HB1 HB2]. revert Ela Elb. unfold smaller. destruct (_ <? _)%Z; simpl; intros Ela Elb;
        split; [apply (HL t)|apply (HL s)|apply (HL s)|apply (HL t)]; auto. }
    destruct HX as ((a & Ha & Hqa & Hva) & (b & Hb & Hqb & Hvb)).
    assert (Hq : veq a b = true).
    { apply (veq_trans a e b); auto. apply veq_sym; auto. }
    assert (Heq : forall u, Holds r u -> veq u e = true -> u = e).
    { intros u Hu Hqu. pose proof (holds_ok r u Hr Hu) as Hvu. apply holds_lookup in He; auto. apply holds_lookup in Hu; auto.
      rewrite (lookup_veq (vok := vok) (sel r) u e) in Hu; auto; [congruence|]. apply sok_allok; auto. }
    destruct (intersection_pair s t r a b la lb) as [H1 H2]; auto.
    destruct (Sooner_dec la lb a) as [HS|HS].
    + right. exists a. rewrite <- (Heq b (H2 HS) Hqb). auto.
    + left. exists b. rewrite <- (Heq a (H1 HS) Hqa). auto.
  - intros [(b & Ha & Hb & Hq & HS)|(a & Ha & Hb & Hq & HS)].
    + apply (intersection_pair s t r e b la lb); auto.
    + apply (intersection_pair s t r a e la lb); auto.
Qed.

(** A set of at most two elements that is no larger than the other gives its own elements. *)
Lemma c68_intersection_two s t : SetReach vok s -> SetReach vok t -> (s_count s <= 2)%Z -> (s_count s <= s_count t)%Z ->
  exists r, s_intersection s t = Ok r /\ (forall e, Holds r e <-> Holds s e /\ Has t e).
Proof.
  intros Hs Ht H2 Hc. pose proof (sreach_ok _ Hs) as Hos. pose proof (sreach_ok _ Ht) as Hot.
  destruct (c68_intersection s t (sel s) (sel t)) as (r & HI & HR); auto.
  { unfold smaller. destruct (Z.ltb_spec (s_count t) (s_count s)); [lia|]. apply (s_elements_ok (vok := vok)); auto. }
  { unfold smaller. destruct (Z.ltb_spec (s_count t) (s_count s)); [lia|]. apply (s_elements_ok (vok := vok)); auto. }
  exists r. split; auto. intros e. rewrite HR.
  assert (HN : forall v, ~ Sooner (sel s) (sel t) v).
  { intros v (k & _ & H3 & _). pose proof (s_count_ok (vok := vok) s Hos) as HC. unfold beside, number in H3.
    assert (HL : forall p (l : list T), length (filter p l) <= length l).
    { intros p l. induction l; simpl; [lia|]. destruct (p a); simpl; lia. }
    match type of H3 with _ <= length (filter ?p ?l) => pose proof (HL p l) end. lia. }
  split.
  - intros [(b & Ha & Hb & Hq & _)|(a & _ & _ & _ & HS)]; [|exfalso; eapply HN; eauto].
    assert (He : Holds s e) by (apply (holds_In (vok := vok)); auto). split; auto. pose proof (holds_ok s e Hos He) as Hv.
    apply has_lookup; auto. apply lookup_not_None. exists b. split; auto. apply veq_sym; auto. apply (sok_allok t Hot b Hb).
  - intros [He HH]. left. pose proof (holds_ok s e Hos He) as Hv. apply has_lookup in HH; auto. apply lookup_not_None in HH as (b & Hb & Hq).
    exists b. split; [apply (holds_In (vok := vok)); auto|]. split; auto. split; [|auto]. apply veq_sym; auto. apply (sok_allok t Hot b Hb).
Qed.

(** Sets with different numbers of elements may be swapped. *)
Lemma c68_intersection_swap s t : SetReach vok s -> SetReach vok t -> s_count s <> s_count t ->
  exists r r', s_intersection s t = Ok r /\ s_intersection t s = Ok r' /\ (forall e, Holds r e <-> Holds r' e).
Proof.
  intros Hs Ht Hc. pose proof (sreach_ok _ Hs) as Hos. pose proof (sreach_ok _ Ht) as Hot.
  assert (Hsw : smaller t s = smaller s t).
  { unfold smaller. destruct (Z.ltb_spec (s_count t) (s_count s)), (Z.ltb_spec (s_count s) (s_count t)); auto; lia. }
  assert (HE' : exists la lb, s_elements (fst (smaller s t)) = Ok la /\ s_elements (snd (smaller s t)) = Ok lb).
  { unfold smaller. destruct (_ <? _)%Z; simpl; do 2 eexists; split; apply (s_elements_ok (vok := vok)); auto. }
  destruct HE' as (la & lb & Ela & Elb).
  destruct (c68_intersection s t la lb Hs Ht Ela Elb) as (r & HI & HR).
  destruct (c68_intersection t s la lb Ht Hs) as (r' & HI' & HR'); [rewrite Hsw; auto|rewrite Hsw; auto|].
  exists r, r'. split; auto. split; auto. intros e. rewrite HR, HR'. reflexivity.
Qed.
End SpecRep.

Section SpecRepImage.
Local Opaque maxTreeDepth fanout fb.
Context {E : Env} {HE : EnvOk E} {T U : Type} {K : Key T} {vok : T -> Prop} {KO : KeyOk K vok} {KU : Key U} {uok : U -> Prop} {KUO : KeyOk KU uok}.

(** SetMap keeps the image of the element that comes last among those with equal images. *)
Lemma c68_setMap (s : set T) (f : T -> U) l : SetReach vok s -> (forall e, Holds s e -> uok (f e)) -> s_elements s = Ok l ->
  exists r, s_map s f = Ok r /\ (forall u, Holds r u <-> LastIn (map f l) u).
Proof.
  intros Hs Hf El. apply sreach_ok in Hs. rewrite (s_elements_ok (vok := vok)) in El by auto. injection El as <-.
  assert (Hf' : forall e, In e (sel s) -> uok (f e)).
  { intros e He. apply Hf. apply (holds_In (vok := vok)); auto. }
  destruct (s_map_ok (vok := vok) (uok := uok) s f) as (r & E1 & Hr & HR); auto.
  exists r. split; auto. intros u.
  assert (HH : uok u -> Holds r u <-> LastIn (map f (sel s)) u).
  { intros Hu. rewrite (holds_lookup (vok := uok)), HR by auto. apply (lastIn_find (vok := uok)); auto. }
  split; intros H.
  - apply HH; auto. apply (holds_ok r u Hr H).
  - apply HH; auto. destruct H as (l1 & l2 & Hl & _). pose proof (in_elt u l1 l2) as Hi. rewrite <- Hl in Hi.
    apply in_map_iff in Hi as (e & <- & He). auto.
Qed.
End SpecRepImage.

Section SpecRepMap.
Local Opaque maxTreeDepth fanout fb.
Context {E : Env} {HE : EnvOk E} {X V : Type} {KX : Key X} {kok : X -> Prop} {KO : KeyOk KX kok} {ZV : Zero V} {valok : V -> Prop}.
Implicit Types (m n r : gomap X V) (k j : X).

Ltac mreach := repeat match goal with H : MapReach _ _ _ |- _ => apply mreach_ok in H end.

(** The entry of a key in the list after which no entry for an equal key comes. *)
Definition LastEntry (l : list (keyValue X V)) k (v : V) : Prop :=
  exists l1 l2, l = l1 ++ mkKV k v :: l2 /\ forall x, In x l2 -> veq (kv_key x) k = false.

(** NewMap keeps the last of several entries for equal keys, with its key. *)
Lemma c68_newMap (kvs : list (keyValue X V)) : (forall kv, In kv kvs -> kok (kv_key kv)) ->
  exists r, m_new kvs = Ok r /\ (forall k v, Entry r k v <-> LastEntry kvs k v).
Proof.
  intros Hk. destruct (m_new_ok (kok := kok) kvs Hk) as (r & E1 & Hr & HR). exists r. split; auto. intros k v.
  assert (HH : kok k -> Entry r k v <-> LastEntry kvs k v).
  { intros Hkk. rewrite entry_klk, HR by auto. unfold klast, klk. rewrite find_rev. unfold LastEntry. split.
    - intros (l1 & l2 & Hm & _ & Hl). apply map_eq_app in Hm as (a1 & a2 & -> & <- & Hm).
      destruct a2 as [|[k' v'] a2]; [discriminate|]. cbn in Hm. injection Hm as -> -> <-. exists a1, a2. split; auto.
      intros x Hx. apply (Hl (mkEntry (kv_key x) (kv_val x))). apply in_map_iff. eauto.
    - intros (l1 & l2 & -> & Hl). eexists _, _. split; [rewrite map_app; reflexivity|]. split; [apply (veq_refl (vok := kok)); auto|].
      intros x Hx. apply in_map_iff in Hx as (y & <- & Hy). cbn. auto. }
  split; intros H.
  - apply HH; auto. eapply entry_ok; eauto.
  - apply HH; auto. destruct H as (l1 & l2 & -> & _). apply (Hk (mkKV k v)), in_elt.
Qed.

(** Update keeps the keys of the argument with its values. *)
Lemma c68_update m n r : MapReach kok valok m -> MapReach kok valok n -> m_update m n = Ok r ->
  (forall k v, Entry r k v <-> Entry n k v \/ Entry m k v /\ Misses n k).
Proof.
  intros Hm Hn H1 k v. mreach. destruct (m_update_ok (kok := kok) m n Hm Hn) as [[_ E1]|(_ & r' & E1 & Hr & HR)]; [congruence|].
  assert (r' = r) as -> by congruence.
  assert (HH : kok k -> Entry r k v <-> Entry n k v \/ Entry m k v /\ Misses n k).
  { intros Hk. rewrite !entry_klk, misses_klk, HR by auto. destruct (klk (mel n) k); intuition congruence. }
  split; intros H.
  - apply HH; auto. eapply entry_ok; eauto.
  - apply HH; auto. destruct H as [H|[H _]]; [exact (entry_ok n k v Hn H)|exact (entry_ok m k v Hm H)].
Qed.

(** Merge keeps the keys of the receiver. *)
Lemma c68_merge m n resolve r : MapReach kok valok m -> MapReach kok valok n -> m_merge m n resolve = Ok r ->
  (forall k v, Entry r k v <->
     (exists a b, Entry m k a /\ Maps n k b /\ v = resolve k a b) \/ Entry m k v /\ Misses n k \/ Entry n k v /\ Misses m k).
Proof.
  intros Hm Hn H1 k v. mreach. destruct (m_merge_ok (kok := kok) m n resolve Hm Hn) as [[_ E1]|(_ & r' & E1 & Hr & HR)]; [congruence|].
  assert (r' = r) as -> by congruence.
  assert (HH : kok k -> Entry r k v <->
     (exists a b, Entry m k a /\ Maps n k b /\ v = resolve k a b) \/ Entry m k v /\ Misses n k \/ Entry n k v /\ Misses m k).
  { intros Hk. rewrite !entry_klk, !misses_klk, HR by auto. split.
    - destruct (klk (mel m) k) as [[ka va]|] eqn:Em; destruct (klk (mel n) k) as [[kb vb]|] eqn:En; cbn; intros H.
      + injection H as -> <-. left. exists va, vb. split; [apply entry_klk; auto|]. split; auto. apply maps_mget; auto.
        unfold mget. rewrite En. auto.
      + right. left. auto.
      + right. right. auto.
      + discriminate.
    - intros [(a & b & Ha & Hb & ->)|[[Ha Hb]|[Ha Hb]]].
      + apply entry_klk in Ha; auto. apply maps_mget in Hb; auto. unfold mget in Hb. rewrite Ha.
        destruct (klk (mel n) k) as [[kb vb]|]; [|discriminate]. cbn in Hb. injection Hb as ->. reflexivity.
      + rewrite Ha, Hb. auto.
      + rewrite Ha, Hb. auto. }
  split; intros H.
  - apply HH; auto. eapply entry_ok; eauto.
  - apply HH; auto. destruct H as [(a & b & H & _)|[[H _]|[H _]]];
      [exact (entry_ok m k a Hm H)|exact (entry_ok m k v Hm H)|exact (entry_ok n k v Hn H)].
Qed.

(** Project keeps the keys it is given, the last one where several are equal. *)
Lemma c68_project m (keys : list X) : MapReach kok valok m -> (forall k, In k keys -> kok k) ->
  exists r, m_project m keys = Ok r /\ (forall k v, Entry r k v <-> LastIn keys k /\ Maps m k v).
Proof.
  intros Hm Hks. mreach. unfold m_project.
  destruct (mb_fold_ok (kok := kok) (fun k => option_map (mkEntry k) (mget m k))
    (fun b k => o <- m_get m k ;; match o with Some v => mb_put b k v | None => Ok b end) keys)
    with (b := @mkMB X V emptyTree) as (r & E1 & Hr & HR).
  { intros b a Ha _. rewrite (m_get_ok (kok := kok)) by auto. cbn [bind]. destruct (mget m a); auto. }
  { intros a e Ha He. destruct (mget m a); [|discriminate]. injection He as <-. apply (Hks a Ha). }
  { apply mbok_empty. }
  rewrite E1. cbn [bind]. exists (fst (mb_finish r)). split; auto.
  destruct (mb_finish_ok (kok := kok) r Hr) as [Hok Hel]. intros k v.
  assert (Hcong : forall k', kok k' -> kok k -> veq k' k = true -> mget m k' = mget m k).
  { intros k' Hk' Hk Hq. unfold mget. f_equal.
    exact (lookup_veq (vok := eok (kok := kok)) (mel m) (mkEntry k' zero) (mkEntry k zero) (mok_allok m Hm) Hk' Hk Hq). }
  assert (HH : kok k -> Entry (fst (mb_finish r)) k v <-> LastIn keys k /\ Maps m k v).
  { intros Hk. rewrite entry_klk, Hel, HR, maps_mget by auto.
    clear E1 HR. set (f := fun a => match option_map (mkEntry a) (mget m a) with Some e => [e] | None => [] end).
    assert (HL : find (fun e => veq (e_key e) k) (rev (flat_map f keys)) =
                 match find (fun x => veq x k) (rev keys) with Some x => option_map (mkEntry x) (mget m x) | None => None end).
    { clear - Hcong Hks Hk Hm. induction keys as [|a keys IH]; auto. cbn [flat_map rev].
      rewrite rev_app_distr, !find_app, IH by (intros x Hx; apply Hks; right; auto).
      destruct (find (fun x => veq x k) (rev keys)) as [x|] eqn:Ef.
      - destruct (mget m x) as [vx|] eqn:Ex; cbn; auto.
        apply find_some in Ef as [Hx Hq]. apply in_rev in Hx. assert (Hkx : kok x) by (apply Hks; right; auto).
        unfold f. destruct (mget m a) as [va|] eqn:Ea; auto. cbn. destruct (veq a k) eqn:Eq; auto.
        exfalso. rewrite (Hcong x Hkx Hk Hq) in Ex. rewrite (Hcong a (Hks a (or_introl eq_refl)) Hk Eq) in Ea. congruence.
      - unfold f. destruct (mget m a) as [va|] eqn:Ea; cbn; destruct (veq a k) eqn:Eq; cbn; auto; rewrite Ea; auto. }
    change (klast (flat_map f keys) k = match find (fun x => veq x k) (rev keys) with Some x => option_map (mkEntry x) (mget m x) | None => None end) in HL.
    change (flat_map _ keys) with (flat_map f keys). rewrite HL. rewrite <- (lastIn_find (vok := kok)) by auto.
    destruct (find (fun x => veq x k) (rev keys)) as [x|] eqn:Ef.
    - apply find_some in Ef as [Hx Hq]. apply in_rev in Hx. pose proof (Hks x Hx) as Hkx.
      rewrite (Hcong x Hkx Hk Hq). destruct (mget m k); cbn; intuition congruence.
    - cbn. intuition congruence. }
  split; intros H.
  - apply HH; auto. eapply entry_ok; eauto.
  - apply HH; auto. destruct H as [(l1 & l2 & -> & _) _]. apply Hks, in_elt.
Qed.

(** Values keeps the value that comes last among equal ones. *)
Lemma c68_values {KV : Key V} {KVO : KeyOk KV valok} m l : MapReach kok valok m -> m_entries m = Ok l ->
  exists r : set V, m_values m = Ok r /\ (forall v, Holds r v <-> LastIn (map snd l) v).
Proof.
  intros Hm El. pose proof (mreach_vals m Hm) as Hv. mreach. unfold m_values. rewrite El. cbn [bind].
  rewrite (m_entries_ok (kok := kok)) in El by auto. injection El as <-.
  assert (Hok : forall v, In v (map snd (map pair_of (mel m))) -> valok v).
  { intros v Hi. rewrite map_map in Hi. apply in_map_iff in Hi as (e & <- & He). apply (Hv e He). }
  destruct (sb_addMap_ok (vok := valok) (fun kv : X * V => snd kv) (map pair_of (mel m)) (mkSB emptyTree)) as (r & E1 & Hr & HR).
  { apply bok_empty. }
  { intros kv Hi. apply Hok. apply in_map. auto. }
  rewrite E1. cbn [bind]. exists (fst (sb_finish r)). split; auto. intros v.
  assert (HH : valok v -> Holds (fst (sb_finish r)) v <-> LastIn (map snd (map pair_of (mel m))) v).
  { intros Hvv. rewrite (holds_lookup (vok := valok)) by auto. rewrite <- (lastIn_find (vok := valok)) by auto.
    change (sel (fst (sb_finish r))) with (bel r). rewrite HR by auto. unfold findLast.
    change (map (fun kv : X * V => snd kv)) with (map (@snd X V)).
    destruct (find (fun x : V => veq x v) (rev (map snd (map pair_of (mel m))))); [tauto|]. cbn. intuition congruence. }
  split; intros H.
  - apply HH; auto. apply (holds_ok (vok := valok) (fst (sb_finish r)) v); auto.
  - apply HH; auto. destruct H as (l1 & l2 & Hl & _). apply Hok. rewrite Hl. apply in_elt.
Qed.
End SpecRepMap.
