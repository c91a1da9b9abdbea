(** * SpecKeys: maps against sets (C79). A program on maps and the same program on the sets of their keys. *)
From Coq Require Import Permutation.
From Verif Require Import Base Bits Env EnvFacts Node NodeWf NodeBin NodeBin2 NodeUn Iter Tree TreeFacts SetApi SetFacts MapApi MapFacts Reach Spec SpecSet SpecMap SpecShape SpecLaws SpecMapLaws SpecTally.

(** Predicates of Where in the expression look at keys only. *)
Fixpoint KeyTests {X V} (e : mexp X V) : Prop :=
  match e with
  | MVar _ | MEmpty => True
  | MUpdate a b | MMerge _ a b => KeyTests a /\ KeyTests b
  | MWhere p a => (forall k v v', p k v = p k v') /\ KeyTests a
  | MMap _ a | MProject _ a | MWith _ _ a | MWithout _ a => KeyTests a
  end.
Definition isSome {V} (o : option V) : bool := match o with Some _ => true | None => false end.

Section KeysOf.
Context {E : Env} {HE : EnvOk E} {X V : Type} {KX : Key X} {kok : X -> Prop} {valok : V -> Prop} {KO : KeyOk KX kok} {ZV : Zero V}.
Local Opaque maxTreeDepth fanout fb.

(** The program on sets of keys (set.go:33-39, 195-259): Union for Update and Merge, Where for Where, Intersection with NewSet(keys...)
    for Project, nothing for Map, With and Without of the key. A predicate that looks at keys only is given the zero value. *)
Fixpoint krun (sig : nat -> set X) (e : mexp X V) : res (set X) :=
  match e with
  | MVar i => Ok (sig i)
  | MEmpty => Ok s_empty
  | MUpdate a b | MMerge _ a b => s <- krun sig a ;; t <- krun sig b ;; s_union s t
  | MWhere p a => s <- krun sig a ;; s_where s (fun k => p k zero)
  | MMap _ a => krun sig a
  | MProject ks a => s <- krun sig a ;; t <- s_new ks ;; s_intersection s t
  | MWith k _ a => s <- krun sig a ;; s_with s k
  | MWithout k a => s <- krun sig a ;; s_without s k
  end.

(** The set has the keys of the map. *)
Definition Over (m : gomap X V) (s : set X) : Prop := forall w, kok w -> isIn s w = isSome (mget m w).

Lemma over_lists m s lm ls : MapReach kok valok m -> SetReach kok s -> Over m s -> m_entries m = Ok lm -> s_elements s = Ok ls ->
  allok kok (map fst lm) /\ allok kok ls /\ sameUpToOrder (map fst lm) ls /\ sameUpToOrder ls (map fst lm).
Proof.
  intros Hm Hs HO Em Es. pose proof (mreach_ok m Hm) as Hk. destruct (answers_mget m (mget m) Hk (fun _ _ => eq_refl)) as (_ & l & El & (L1 & L2 & L3) & _).
  assert (l = lm) as -> by congruence. clear El. destruct (c04_range s Hs) as (l & _ & El & (S1 & S2 & S3)). assert (l = ls) as -> by congruence. clear El.
  assert (O1 : allok kok (map fst lm)) by (intros e He; apply in_map_iff in He as (kv & <- & He); auto).
  assert (F1 : forall e, In e (map fst lm) -> exists f, In f ls /\ veq e f = true).
  { intros e He. pose proof (O1 e He) as Ho. apply in_map_iff in He as ((k & v) & <- & He). cbn [fst] in *.
    assert (Hg : mget m k = Some v) by (apply L3; auto; exists k; split; auto; apply veq_refl; auto).
    assert (Hi : isIn s k = true) by (rewrite (HO k Ho), Hg; auto). apply isIn_has in Hi. apply S3 in Hi as (f & Hf & Hq); auto.
    exists f. split; auto. apply veq_sym; auto. }
  assert (F2 : forall f, In f ls -> exists e, In e (map fst lm) /\ veq e f = true).
  { intros f Hf. pose proof (S1 f Hf) as Ho. assert (Hi : Has s f) by (apply S3; auto; exists f; split; auto; apply veq_refl; auto).
    apply isIn_has in Hi. rewrite (HO f Ho) in Hi. destruct (mget m f) as [v|] eqn:Hg; [|discriminate]. apply L3 in Hg as (k' & Hk' & Hq); auto.
    exists k'. split; auto. apply in_map_iff. exists (k', v). auto. }
  assert (D1 : distinct (map fst lm)) by (apply unequal_distinct; exact L2). assert (D2 : distinct ls) by (apply unequal_distinct; exact S2).
  split; [|split; [|split]]; auto.
  - apply (eqv_perm (vok := kok)); auto. split; auto.
  - apply (eqv_perm (vok := kok)); auto. split.
    + intros f Hf. destruct (F2 f Hf) as (e & He & Hq). exists e. split; auto. apply veq_sym; auto.
    + intros e He. destruct (F1 e He) as (f & Hf & Hq). exists f. split; auto. apply veq_sym; auto.
Qed.

(** Merge and Update panic (C19) exactly when the Union of the keys does. *)
Lemma over_panics m n s t f : MapReach kok valok m -> MapReach kok valok n -> SetReach kok s -> SetReach kok t -> Over m s -> Over n t ->
  (m_merge m n f = Panic /\ m_update m n = Panic /\ s_union s t = Panic) \/
  ((exists r, m_merge m n f = Ok r) /\ (exists r, m_update m n = Ok r) /\ exists r, s_union s t = Ok r).
Proof.
  intros Hm Hn Hs Ht O1 O2. destruct (answers_mget m (mget m) (mreach_ok m Hm) (fun _ _ => eq_refl)) as (_ & lm & Em & _).
  destruct (answers_mget n (mget n) (mreach_ok n Hn) (fun _ _ => eq_refl)) as (_ & ln & En & _).
  destruct (c04_range s Hs) as (ls & _ & Es & _). destruct (c04_range t Ht) as (lt & _ & Et & _).
  destruct (over_lists m s lm ls Hm Hs O1 Em Es) as (A1 & A2 & P1 & P2). destruct (over_lists n t ln lt Hn Ht O2 En Et) as (B1 & B2 & Q1 & Q2).
  destruct (c19_merge_exact m n f lm ln Hm Hn Em En) as [(Ho & M1 & M2)|(Ho & M1 & M2)];
    destruct (c19_union_exact s t ls lt Hs Ht Es Et) as [[Ho' U]|[Ho' U]]; [left; auto| | |right; auto]; exfalso.
  - apply Ho'. apply (overfull_same (vok := kok) (map fst lm) ls (map fst ln) lt); auto.
  - apply Ho. apply (overfull_same (vok := kok) ls (map fst lm) lt (map fst ln)); auto.
Qed.

(** Both programs panic, or both run to the end and the set has the keys of the map. *)
Lemma run_over rho sig e : (forall i, MapReach kok valok (rho i)) -> (forall i, SetReach kok (sig i)) -> (forall i, Over (rho i) (sig i)) ->
  Proper kok valok e -> KeyTests e ->
  (mrun rho e = Panic /\ krun sig e = Panic) \/
  exists m s, mrun rho e = Ok m /\ krun sig e = Ok s /\ MapReach kok valok m /\ SetReach kok s /\ Over m s.
Proof.
  intros Hr Hg HO HP HT.
  assert (HF : forall i, MapAnswers kok (rho i) (mget (rho i))) by (intros i; apply answers_mget; auto; apply (mreach_ok (rho i) (Hr i))).
  assert (HM : forall e, Proper kok valok e -> forall m, mrun rho e = Ok m -> MapReach kok valok m /\ forall w, kok w -> mget m w = mden (fun i => mget (rho i) w) w e).
  { intros e0 P0 m Em. destruct (c75_meaning rho (fun i => mget (rho i)) e0 Hr HF P0) as [H|(r & Er & Rr & Ar)]; [congruence|].
    assert (r = m) as -> by congruence. split; auto. intros w Hw. symmetry. exact (answers_get m _ w Ar (mreach_ok m Rr) Hw). }
  assert (fin : forall e m s, Proper kok valok e -> mrun rho e = Ok m -> krun sig e = Ok s -> SetReach kok s ->
      (forall w, kok w -> isIn s w = isSome (mden (fun i => mget (rho i) w) w e)) ->
      exists m s, mrun rho e = Ok m /\ krun sig e = Ok s /\ MapReach kok valok m /\ SetReach kok s /\ Over m s).
  { intros e0 m s P0 Em Es Rs Hs. destruct (HM e0 P0 m Em) as [Rm Gm]. exists m, s. do 4 (split; auto). intros w Hw. rewrite (Gm w Hw). auto. }
  induction e as [i| |a IHa b IHb|f a IHa b IHb|p a IHa|f a IHa|ks a IHa|k v a IHa|k a IHa]; cbn [Proper] in HP; cbn [KeyTests] in HT.
  - right. exists (rho i), (sig i). split; [|split; [|split; [|split]]]; auto; apply HO.
  - right. exists m_empty, s_empty. split; [|split; [|split; [|split]]]; auto; [constructor|constructor|]. intros w Hw. reflexivity.
  - destruct HP as [Pa Pb], HT as [Ta Tb]. destruct (IHa Pa Ta) as [[E1 E2]|(m & s & E1 & E2 & Rm & Rs & O1)]; [left; cbn [mrun krun]; rewrite E1, E2; auto|].
    destruct (IHb Pb Tb) as [[E3 E4]|(n & t & E3 & E4 & Rn & Rt & O2)]; [left; cbn [mrun krun]; rewrite E1, E2, E3, E4; auto|].
    destruct (over_panics m n s t (fun _ x _ => x) Rm Rn Rs Rt O1 O2) as [(_ & D2 & D3)|(_ & (r & D2) & u & D3)]; [left; cbn [mrun krun]; rewrite E1, E2, E3, E4; auto|].
    right. destruct (c02_union s t u Rs Rt D3) as [Au _]. apply (fin (MUpdate a b) r u); [split; auto|cbn [mrun]; rewrite E1, E3; auto|cbn [krun]; rewrite E2, E4; auto|apply (sr_union _ _ _ s t); auto|].
    intros w Hw. apply eq_true_iff_eq. rewrite (answers_isIn u _ w Au Hw), <- !isIn_has, (O1 w Hw), (O2 w Hw). cbn [mden].
    rewrite (proj2 (HM a Pa m E1) w Hw), (proj2 (HM b Pb n E3) w Hw). destruct (mden _ w a), (mden _ w b); cbn; intuition.
  - destruct HP as (P1 & P2 & Pa & Pb), HT as [Ta Tb]. destruct (IHa Pa Ta) as [[E1 E2]|(m & s & E1 & E2 & Rm & Rs & O1)]; [left; cbn [mrun krun]; rewrite E1, E2; auto|].
    destruct (IHb Pb Tb) as [[E3 E4]|(n & t & E3 & E4 & Rn & Rt & O2)]; [left; cbn [mrun krun]; rewrite E1, E2, E3, E4; auto|].
    destruct (over_panics m n s t f Rm Rn Rs Rt O1 O2) as [(D2 & _ & D3)|((r & D2) & _ & u & D3)]; [left; cbn [mrun krun]; rewrite E1, E2, E3, E4; auto|].
    right. destruct (c02_union s t u Rs Rt D3) as [Au _]. apply (fin (MMerge f a b) r u); [split; auto|cbn [mrun]; rewrite E1, E3; auto|cbn [krun]; rewrite E2, E4; auto|apply (sr_union _ _ _ s t); auto|].
    intros w Hw. apply eq_true_iff_eq. rewrite (answers_isIn u _ w Au Hw), <- !isIn_has, (O1 w Hw), (O2 w Hw). cbn [mden].
    rewrite (proj2 (HM a Pa m E1) w Hw), (proj2 (HM b Pb n E3) w Hw). destruct (mden _ w a), (mden _ w b); cbn; intuition.
  - destruct HP as [P1 Pa], HT as [T1 Ta]. destruct (IHa Pa Ta) as [[E1 E2]|(m & s & E1 & E2 & Rm & Rs & O1)]; [left; cbn [mrun krun]; rewrite E1, E2; auto|]. right.
    destruct (m_where_ok (kok := kok) m p (mreach_ok m Rm)) as (r & D1 & _).
    destruct (c08_comprehension s (fun k => p k zero) Rs) as (u & D2 & Au); [intros x y Hx Hy Hq; apply P1; auto|].
    apply (fin (MWhere p a) r u); [split; auto|cbn [mrun]; rewrite E1; auto|cbn [krun]; rewrite E2; auto|apply (sr_where _ _ _ s (fun k => p k zero)); auto|].
    intros w Hw. apply eq_true_iff_eq. rewrite (answers_isIn u _ w Au Hw), <- !isIn_has, (O1 w Hw). cbn [mden].
    rewrite (proj2 (HM a Pa m E1) w Hw). destruct (mden _ w a) as [x|]; cbn; [|intuition]. rewrite (T1 w zero x). destruct (p w x); cbn; intuition.
  - destruct HP as (P1 & P2 & Pa). destruct (IHa Pa HT) as [[E1 E2]|(m & s & E1 & E2 & Rm & Rs & O1)]; [left; cbn [mrun krun]; rewrite E1, E2; auto|]. right.
    destruct (m_map_ok (kok := kok) m f (mreach_ok m Rm)) as (r & D1 & _).
    apply (fin (MMap f a) r s); [split; auto|cbn [mrun]; rewrite E1; auto|cbn [krun]; auto|auto|].
    intros w Hw. rewrite (O1 w Hw). cbn [mden]. rewrite (proj2 (HM a Pa m E1) w Hw). destruct (mden _ w a); auto.
  - destruct HP as [P1 Pa]. destruct (IHa Pa HT) as [[E1 E2]|(m & s & E1 & E2 & Rm & Rs & O1)]; [left; cbn [mrun krun]; rewrite E1, E2; auto|]. right.
    destruct (c25_project m (mget m) ks Rm (answers_mget m (mget m) (mreach_ok m Rm) (fun _ _ => eq_refl)) P1) as (r & D1 & _).
    destruct (c16_newSet (vok := kok) ks P1) as (t & D2 & At & _). assert (Rt : SetReach kok t) by (apply (sr_new X KX kok ks); auto).
    destruct (c02_intersection s t Rs Rt) as (u & D3 & Au & _).
    apply (fin (MProject ks a) r u); [split; auto|cbn [mrun]; rewrite E1; auto|cbn [krun]; rewrite E2; cbn [bind]; rewrite D2; auto|apply (sr_intersection _ _ _ s t); auto|].
    intros w Hw. apply eq_true_iff_eq. rewrite (answers_isIn u _ w Au Hw), <- !isIn_has, (O1 w Hw), (answers_isIn t _ w At Hw). cbn [mden].
    rewrite (proj2 (HM a Pa m E1) w Hw). destruct (existsb (fun k => veq k w) ks) eqn:Ex.
    + apply existsb_exists in Ex as (k & Hk & Hq). split; [tauto|]. intros H. split; auto. exists k. auto.
    + split; [|discriminate]. intros (_ & k & Hk & Hq). assert (existsb (fun k => veq k w) ks = true) by (apply existsb_exists; exists k; auto). congruence.
  - destruct HP as (P1 & P2 & Pa). destruct (IHa Pa HT) as [[E1 E2]|(m & s & E1 & E2 & Rm & Rs & O1)]; [left; cbn [mrun krun]; rewrite E1, E2; auto|]. right.
    destruct (c21_with m (mget m) k v Rm (answers_mget m (mget m) (mreach_ok m Rm) (fun _ _ => eq_refl)) P1) as (r & D1 & _).
    destruct (c01_with s k Rs P1) as (u & D2 & Au & _).
    apply (fin (MWith k v a) r u); [split; auto|cbn [mrun]; rewrite E1; auto|cbn [krun]; rewrite E2; auto|apply (sr_with _ _ _ s k); auto|].
    intros w Hw. apply eq_true_iff_eq. rewrite (answers_isIn u _ w Au Hw), <- !isIn_has, (O1 w Hw). cbn [mden].
    rewrite (proj2 (HM a Pa m E1) w Hw). destruct (veq k w); cbn; intuition.
  - destruct HP as [P1 Pa]. destruct (IHa Pa HT) as [[E1 E2]|(m & s & E1 & E2 & Rm & Rs & O1)]; [left; cbn [mrun krun]; rewrite E1, E2; auto|]. right.
    destruct (c21_without m (mget m) k Rm (answers_mget m (mget m) (mreach_ok m Rm) (fun _ _ => eq_refl)) P1) as (r & D1 & _).
    destruct (c01_without s k Rs P1) as (u & D2 & Au & _).
    apply (fin (MWithout k a) r u); [split; auto|cbn [mrun]; rewrite E1; auto|cbn [krun]; rewrite E2; auto|apply (sr_without _ _ _ s k); auto|].
    intros w Hw. apply eq_true_iff_eq. rewrite (answers_isIn u _ w Au Hw), <- !isIn_has, (O1 w Hw). cbn [mden].
    rewrite (proj2 (HM a Pa m E1) w Hw). destruct (veq k w); cbn; intuition congruence.
Qed.

Lemma keys_over m s : MapReach kok valok m -> m_keys m = Ok s -> SetReach kok s /\ Over m s.
Proof.
  intros Hm Es. split; [apply (sr_keys X V KX ZV kok valok m); auto|]. destruct (m_keys_ok (kok := kok) m (mreach_ok m Hm)) as (r & E1 & Hr & _).
  destruct (c24_keys m Hm) as (r' & E2 & HA & _). assert (r' = s) as -> by congruence. intros w Hw. apply eq_true_iff_eq. rewrite (answers_isIn s _ w HA Hw).
  pose proof (mreach_ok m Hm) as Hk. split.
  - intros (v & H). apply (maps_mget (kok := kok)) in H; auto. rewrite H. auto.
  - destruct (mget m w) as [v|] eqn:Ev; [|discriminate]. intros _. exists v. apply (maps_mget (kok := kok)); auto.
Qed.

(** Keys takes programs on maps to programs on sets. *)
Lemma c79_keys rho sig e : (forall i, MapReach kok valok (rho i)) -> (forall i, m_keys (rho i) = Ok (sig i)) -> Proper kok valok e -> KeyTests e ->
  (mrun rho e = Panic /\ krun sig e = Panic) \/
  exists m s k, mrun rho e = Ok m /\ krun sig e = Ok s /\ m_keys m = Ok k /\ s_equal k s = Ok true /\
    m_count m = s_count s /\ forall w, kok w -> m_has m w = s_has s w.
Proof.
  intros Hr Hk HP HT. destruct (run_over rho sig e Hr (fun i => proj1 (keys_over (rho i) (sig i) (Hr i) (Hk i))) (fun i => proj2 (keys_over (rho i) (sig i) (Hr i) (Hk i))) HP HT)
    as [H|(m & s & E1 & E2 & Rm & Rs & HO)]; [left; auto|]. right. destruct (c24_keys m Rm) as (k & Ek & _). destruct (keys_over m k Rm Ek) as [Rk Ok']. exists m, s, k.
  do 3 (split; auto). split; [|split].
  - apply (equal_isIn k s Rk Rs). intros w Hw. rewrite (Ok' w Hw), (HO w Hw). auto.
  - destruct (answers_mget m (mget m) (mreach_ok m Rm) (fun _ _ => eq_refl)) as (_ & lm & Em & _ & ->). destruct (c03_count s Rs) as ((_ & ls & Es & _ & ->) & _).
    destruct (over_lists m s lm ls Rm Rs HO Em Es) as (_ & _ & (l'' & P & F) & _). f_equal. apply Permutation_length in P. rewrite P, <- (map_length fst lm). clear - F. induction F; cbn; auto.
  - intros w Hw. pose proof (c21_variants m (mget m) w Rm (answers_mget m (mget m) (mreach_ok m Rm) (fun _ _ => eq_refl)) Hw) as HV.
    pose proof (HO w Hw) as Hi. destruct (c01_has s w Rs Hw) as (b & Eb & _). unfold isIn in Hi. rewrite Eb in Hi. rewrite Eb. subst b.
    destruct (mget m w); destruct HV as (_ & -> & _); auto.
Qed.

(** A predicate that looks at values takes keys away that no program on the keys could know of: what is left are some of them. *)
Lemma c79_where m p r k k' : MapReach kok valok m -> m_where m p = Ok r -> m_keys m = Ok k -> m_keys r = Ok k' -> s_isSubsetOf k' k = Ok true.
Proof.
  intros Hm Er Ek Ek'. assert (Rr : MapReach kok valok r) by (apply (mr_where _ _ _ _ _ _ m p); auto).
  destruct (keys_over m k Hm Ek) as [Rk O1], (keys_over r k' Rr Ek') as [Rk' O2].
  destruct (c06_isSubsetOf k' k Rk' Rk) as (b & -> & Hb). f_equal. apply Hb. intros w Hw. rewrite <- !isIn_has, (O1 w Hw), (O2 w Hw).
  destruct (m_where_ok (kok := kok) m p (mreach_ok m Hm)) as (r' & Er' & _ & HR). assert (r' = r) as -> by congruence.
  unfold mget. rewrite HR by auto. destruct (klk (mel m) w); cbn; auto.
Qed.

End KeysOf.
