(** * RelFacts: facts about pkg/rel. *)
From Verif Require Import Base Bits Env EnvFacts Node NodeWf NodeAdd NodeRemove NodeBin NodeBin2 NodeUn Iter Tree TreeFacts
  SetApi SetFacts MapApi MapFacts GroupFacts Clash Rel.

(** ** Loops that add to a set builder *)
Section Loops.
Local Opaque maxTreeDepth fanout fb.
Context {E : Env} {HE : EnvOk E} {T : Type} {K : Key T} {vok : T -> Prop} {KO : KeyOk K vok}.

(** Membership in a builder and in a set, up to equality. *)
Definition bmem (b : setBuilder T) (x : T) : Prop := lookup (bel b) x <> None.
Definition smem (s : set T) (x : T) : Prop := lookup (sel s) x <> None.

Lemma smem_iff s x : smem s x <-> exists e, In e (sel s) /\ veq e x = true.
Proof.
  unfold smem. destruct (lookup (sel s) x) as [e|] eqn:El.
  - apply lookup_Some in El. split; [intros _; eauto|discriminate].
  - split; [congruence|]. intros (e & He & Hq). rewrite (proj1 (lookup_None _ _) El e He) in Hq. discriminate.
Qed.

Lemma sb_add_mem b v b' : bok (vok := vok) b -> vok v -> sb_add b v = Ok b' ->
  bok (vok := vok) b' /\ forall x, vok x -> bmem b' x <-> bmem b x \/ veq v x = true.
Proof.
  intros Hb Hv Hr. destruct (sb_add_ok (vok := vok) b v Hb Hv) as (r & E1 & Hr1 & Hl & _).
  rewrite E1 in Hr. injection Hr as <-. split; auto. intros x Hx. unfold bmem. rewrite Hl by auto.
  destruct (veq v x); split; auto; try tauto; try discriminate. intros [H|H]; auto. discriminate.
Qed.

Lemma fold_mem {A} (step : setBuilder T -> A -> res (setBuilder T)) (P : A -> T -> Prop) l :
  (forall b a b', In a l -> bok (vok := vok) b -> step b a = Ok b' ->
     bok (vok := vok) b' /\ forall x, vok x -> bmem b' x <-> bmem b x \/ P a x) ->
  forall b b', bok (vok := vok) b -> foldM step b l = Ok b' ->
  bok (vok := vok) b' /\ forall x, vok x -> bmem b' x <-> bmem b x \/ exists a, In a l /\ P a x.
Proof.
  induction l as [|a l IH]; intros Hs b b' Hb Hr; cbn [foldM] in Hr.
  - injection Hr as <-. split; auto. intros x Hx. split; auto. intros [H|(a & [] & _)]; auto.
  - destruct (step b a) as [b1| |] eqn:E1; try discriminate. cbn [bind] in Hr.
    destruct (Hs b a b1 (or_introl eq_refl) Hb E1) as [Hb1 H1].
    destruct (IH (fun b a b' Ha => Hs b a b' (or_intror Ha)) b1 b' Hb1 Hr) as [Hb' H2].
    split; auto. intros x Hx. rewrite H2, H1 by auto. split.
    + intros [[H|H]|(a' & Ha & H)]; auto; right; [exists a|exists a']; simpl; auto.
    + intros [H|(a' & [<-|Ha] & H)]; eauto.
Qed.

Lemma fold_returns {A S} (inv : S -> Prop) (step : S -> A -> res S) l :
  (forall b a, In a l -> inv b -> exists b', step b a = Ok b' /\ inv b') ->
  forall b, inv b -> exists b', foldM step b l = Ok b' /\ inv b'.
Proof.
  induction l as [|a l IH]; intros Hs b Hb; cbn [foldM]; eauto.
  destruct (Hs b a (or_introl eq_refl) Hb) as (b1 & -> & Hb1). cbn [bind].
  apply IH; auto. intros b2 a2 Ha2. apply Hs. right; auto.
Qed.

Lemma foldM_ext {A S} (f g : S -> A -> res S) l : (forall s a, In a l -> f s a = g s a) -> forall s, foldM f s l = foldM g s l.
Proof.
  induction l as [|a l IH]; intros H s; cbn [foldM]; auto.
  rewrite (H s a) by (left; auto). destruct (g s a); cbn [bind]; auto. apply IH. intros. apply H. right; auto.
Qed.
End Loops.

Definition orElse {A} (d : A) (r : res A) : A := match r with Ok a => a | _ => d end.

(** ** Callbacks that return *)
Section Callbacks.
Local Opaque maxTreeDepth fanout fb.
Context {E : Env} {HE : EnvOk E}.

Lemma s_groupByM_pure {T X} {K : Key T} {KX : Key X} (vok : T -> Prop) {KO : KeyOk K vok} (s : set T) (key : T -> res X) g :
  sok vok s -> (forall v, In v (sel s) -> key v = Ok (g v)) -> s_groupByM s key = s_groupBy s g.
Proof.
  intros Hs H. unfold s_groupByM, s_groupBy. rewrite (s_elements_ok (vok := vok)) by auto. cbn [bind].
  rewrite (foldM_ext _ (groupBy_step g)); auto. intros [b st] v Hv. rewrite (H v Hv). reflexivity.
Qed.

Lemma m_mapM_pure {X V U} {KX : Key X} {ZV : Zero V} {ZU : Zero U} (kok : X -> Prop) {KO : KeyOk KX kok} (m : gomap X V)
  (f : X -> V -> res U) g :
  mok kok m -> (forall e, In e (mel m) -> f (e_key e) (e_val e) = Ok (g (e_key e) (e_val e))) -> m_mapM m f = m_map m g.
Proof.
  intros Hm H. unfold m_mapM, m_map. rewrite (m_entries_ok (kok := kok)) by auto. cbn [bind].
  rewrite (foldM_ext _ (fun b kv => mb_put b (fst kv) (g (fst kv) (snd kv)))); auto.
  intros b kv Hkv. apply in_map_iff in Hkv as (e & <- & He). cbn [pair_of fst snd]. rewrite (H e He). reflexivity.
Qed.

Lemma s_mapM_mem {T U} {K : Key T} {KU : Key U} {vok : T -> Prop} {uok : U -> Prop} {KO : KeyOk K vok} {KUO : KeyOk KU uok}
  (s : set T) (f : T -> res U) g :
  sok vok s -> (forall v, In v (sel s) -> f v = Ok (g v) /\ uok (g v)) ->
  exists r, s_mapM s f = Ok r /\ sok uok r /\ forall x, uok x -> smem r x <-> exists v, In v (sel s) /\ veq (g v) x = true.
Proof.
  intros Hs H. unfold s_mapM. rewrite (s_elements_ok (vok := vok)) by auto. cbn [bind].
  rewrite (foldM_ext _ (fun b v => sb_add b (g v))).
  2:{ intros b v Hv. rewrite (proj1 (H v Hv)). reflexivity. }
  destruct (sb_addMap_ok (vok := uok) g (sel s) (mkSB emptyTree)) as (b & E1 & Hb & Hl); auto using bok_empty.
  { intros v Hv. apply H; auto. }
  rewrite E1. cbn [bind]. exists (fst (sb_finish b)). split; auto. split; auto. intros x Hx.
  unfold smem. change (sel (fst (sb_finish b))) with (bel b). rewrite Hl by auto. change (bel (mkSB emptyTree)) with (@nil U).
  destruct (findLast (map g (sel s)) x) as [e|] eqn:Ef.
  - apply findLast_Some in Ef as [He Hq]. apply in_map_iff in He as (v & <- & Hv). split; [eauto|discriminate].
  - cbn. split; [congruence|]. intros (v & Hv & Hq). exfalso.
    pose proof (proj1 (findLast_None _ _) Ef (g v) (in_map g _ _ Hv)). congruence.
Qed.
End Callbacks.

Section RelFacts.
Local Opaque maxTreeDepth fanout fb.
Context {E : Env} {HE : EnvOk E} {X V : Type} {KX : Key X} {kok : X -> Prop} {KO : KeyOk KX kok} {ZV : Zero V}.
Context {KV : Key V} {valok : V -> Prop} {KVO : KeyOk KV valok}.
Notation tuple := (gomap X V).
Notation relation := (set (gomap X V)).
Notation tupok := (mvok kok valok).
Notation relok := (sok (K := mapKey) (mvok kok valok)).
#[local] Instance tupleKeyOk : KeyOk (@mapKey E X V KX KV) tupok := mapKeyOk (HE := HE).

(** ** Tuples as finite functions *)

Definition opteq (a b : option V) : Prop :=
  match a, b with Some u, Some v => veq u v = true | None, None => True | _, _ => False end.

(** The tuple [x] is the finite function [F], up to equality of values. *)
Definition meets (x : tuple) (F : X -> option V) : Prop := forall j, kok j -> opteq (mget x j) (F j).

Definition hasAttr (attrs : list X) (j : X) : bool := existsb (fun k => veq k j) attrs.

Lemma teq_meets a b : tupok a -> tupok b -> @veq _ mapKey a b = true <-> meets a (mget b).
Proof.
  intros [Ha _] [Hb _]. destruct (m_equal_ok (kok := kok) a b Ha Hb) as (x & E1 & Hx). cbn. rewrite E1. apply Hx.
Qed.

Lemma opteq_sym a b : (forall v, a = Some v -> valok v) -> (forall v, b = Some v -> valok v) -> opteq a b -> opteq b a.
Proof. destruct a, b; cbn; auto. intros H1 H2. apply (veq_sym (vok := valok)); auto. Qed.
Lemma opteq_trans a b c : (forall v, a = Some v -> valok v) -> (forall v, b = Some v -> valok v) ->
  (forall v, c = Some v -> valok v) -> opteq a b -> opteq b c -> opteq a c.
Proof. destruct a, b, c; cbn; auto; try tauto. intros H1 H2 H3. apply (veq_trans (vok := valok)); auto. Qed.
Lemma opteq_refl a : (forall v, a = Some v -> valok v) -> opteq a a.
Proof. destruct a; cbn; auto. intros H. apply (veq_refl (vok := valok)); auto. Qed.
Lemma opteq_None a : opteq a None <-> a = None.
Proof. destruct a; cbn; split; auto; try tauto; discriminate. Qed.

Lemma mget_valok t j v : tupok t -> mget t j = Some v -> valok v.
Proof. apply mget_ok. Qed.

Ltac mvals := match goal with |- forall v, mget ?t ?j = Some v -> valok v =>
  let u := fresh in let Hv := fresh in intros u Hv; apply (mget_valok t j u); [assumption|exact Hv] end.

Lemma tupok_mk r : mok kok r -> (forall j v, kok j -> mget r j = Some v -> valok v) -> tupok r.
Proof.
  intros Hr H. split; auto. intros e He. apply (H (e_key e)); [apply (mok_allok r Hr); auto|].
  unfold mget. rewrite (proj2 (klk_iff r (e_key e) e Hr (mok_allok r Hr e He))); auto.
  split; auto. apply (veq_refl (vok := kok)). apply (mok_allok r Hr); auto.
Qed.

Lemma tupok_empty : tupok m_empty.
Proof. split; [apply mok_empty|intros e []]. Qed.
Lemma mget_empty j : mget (@m_empty X V) j = None.
Proof. reflexivity. Qed.

Lemma mget_veq t j k : tupok t -> kok j -> kok k -> veq j k = true -> mget t j = mget t k.
Proof.
  intros [Ht _] Hj Hk Hq. unfold mget. f_equal.
  exact (lookup_veq (vok := eok (kok := kok)) (mel t) (mkEntry j zero) (mkEntry k zero) (mok_allok t Ht) Hj Hk Hq).
Qed.

Lemma hasAttr_veq attrs j k : (forall a, In a attrs -> kok a) -> kok j -> kok k -> veq j k = true ->
  hasAttr attrs j = hasAttr attrs k.
Proof.
  intros Ha Hj Hk Hq. unfold hasAttr. apply eq_true_iff_eq. rewrite !existsb_exists. split; intros (a & H1 & H2); exists a; split; auto.
  - apply (veq_trans (vok := kok) a j k); auto.
  - apply (veq_trans (vok := kok) a k j); auto. apply (veq_sym (vok := kok)); auto.
Qed.

Lemma t_project_ok t attrs : tupok t -> (forall k, In k attrs -> kok k) ->
  exists r, m_project t attrs = Ok r /\ tupok r /\
    forall j, kok j -> mget r j = if hasAttr attrs j then mget t j else None.
Proof.
  intros Ht Ha. destruct (m_project_ok (kok := kok) t attrs (proj1 Ht) Ha) as (r & E1 & Hr & HR).
  exists r. split; auto. split; auto. apply tupok_mk; auto. intros j v Hj Hv. rewrite HR in Hv by auto.
  destruct (existsb _ attrs); [|discriminate]. eapply mget_valok; eauto.
Qed.

Lemma t_with_ok' t k v : tupok t -> kok k -> valok v ->
  exists r, m_with t k v = Ok r /\ tupok r /\ forall j, kok j -> mget r j = if veq k j then Some v else mget t j.
Proof.
  intros Ht Hk Hv. destruct (m_with_ok (kok := kok) t k v (proj1 Ht) Hk) as (r & E1 & Hr & HR & _).
  assert (HG : forall j, kok j -> mget r j = if veq k j then Some v else mget t j).
  { intros j Hj. unfold mget. rewrite HR by auto. destruct (veq k j); auto. }
  exists r. split; auto. split; auto. apply tupok_mk; auto. intros j w Hj Hw. rewrite HG in Hw by auto.
  destruct (veq k j); [congruence|]. eapply mget_valok; eauto.
Qed.

Lemma t_without_ok' t k : tupok t -> kok k ->
  exists r, m_without t k = Ok r /\ tupok r /\ forall j, kok j -> mget r j = if veq k j then None else mget t j.
Proof.
  intros Ht Hk. destruct (m_without_ok (kok := kok) t k (proj1 Ht) Hk) as (r & E1 & Hr & HR & _).
  assert (HG : forall j, kok j -> mget r j = if veq k j then None else mget t j).
  { intros j Hj. unfold mget. rewrite HR by auto. destruct (veq k j); auto. }
  exists r. split; auto. split; auto. apply tupok_mk; auto. intros j w Hj Hw. rewrite HG in Hw by auto.
  destruct (veq k j); [congruence|]. eapply mget_valok; eauto.
Qed.

Lemma t_withoutAll_ok attrs : forall t, tupok t -> (forall k, In k attrs -> kok k) ->
  exists r, foldM m_without t attrs = Ok r /\ tupok r /\ forall j, kok j -> mget r j = if hasAttr attrs j then None else mget t j.
Proof.
  induction attrs as [|k attrs IH]; intros t Ht Ha; cbn [foldM].
  - exists t. split; auto.
  - destruct (t_without_ok' t k Ht) as (r1 & -> & Hr1 & HR1); [apply Ha; left; auto|]. cbn [bind].
    destruct (IH r1 Hr1) as (r & E2 & Hr & HR); [intros; apply Ha; right; auto|].
    exists r. split; auto. split; auto. intros j Hj. rewrite HR, HR1 by auto. cbn [hasAttr existsb].
    fold (hasAttr attrs j). destruct (hasAttr attrs j), (veq k j); auto.
Qed.

(** [F] updated by the tuple [t]. *)
Definition over (F : X -> option V) (t : tuple) : X -> option V :=
  fun j => match mget t j with Some v => Some v | None => F j end.

Lemma t_update_ok t u r : tupok t -> tupok u -> m_update t u = Ok r ->
  tupok r /\ forall j, kok j -> mget r j = over (mget t) u j.
Proof.
  intros Ht Hu Er. destruct (m_update_ok (kok := kok) t u (proj1 Ht) (proj1 Hu)) as [[_ H]|(_ & r' & E1 & Hr & HR)]; [congruence|].
  rewrite E1 in Er. injection Er as <-.
  assert (HG : forall j, kok j -> mget r' j = over (mget t) u j).
  { intros j Hj. unfold mget, over. rewrite HR by auto. unfold mget. destruct (klk (mel u) j); auto. }
  split; auto. apply tupok_mk; auto. intros j v Hj Hv. rewrite HG in Hv by auto. unfold over in Hv.
  destruct (mget u j) as [w|] eqn:Eu; [injection Hv as <-; apply (mget_valok u j w Hu Eu)|apply (mget_valok t j v Ht Hv)].
Qed.

(** No three different attributes have the same 64-bit hash. *)
Definition fewCollisions : Prop := forall a b c : X, kok a -> kok b -> kok c ->
  vhash a 0 = vhash b 0 -> vhash b 0 = vhash c 0 -> veq a b = true \/ veq b c = true \/ veq a c = true.

Lemma few_le (t : tuple) h : fewCollisions -> mok kok t ->
  length (filter (fun e : entry X V => N.eqb (vhash e 0) h) (mel t)) <= 2.
Proof.
  intros Hf Ht. destruct (filter _ (mel t)) as [|a [|b [|c l]]] eqn:Ef; cbn [length]; try lia. exfalso.
  assert (HI : forall e, In e [a; b; c] -> In e (mel t) /\ vhash (e_key e) 0 = h).
  { intros e He. assert (Hin : In e (a :: b :: c :: l)) by (cbn in He |- *; tauto). rewrite <- Ef in Hin.
    apply filter_In in Hin as [H1 H2]. apply N.eqb_eq in H2. auto. }
  assert (Hd : distinct (a :: b :: c :: l)).
  { rewrite <- Ef. apply distinct_filter. apply (mok_distinct t Ht). }
  destruct (HI a) as [Ia Ea]; [cbn; auto|]. destruct (HI b) as [Ib Eb]; [cbn; auto|]. destruct (HI c) as [Ic Ec]; [cbn; auto|].
  pose proof (mok_allok t Ht) as Ho.
  inversion Hd as [|? ? Hda Hd1]; subst. inversion Hd1 as [|? ? Hdb Hd2]; subst.
  pose proof (Hda b (or_introl eq_refl)) as Q1. pose proof (Hda c (or_intror (or_introl eq_refl))) as Q2.
  pose proof (Hdb c (or_introl eq_refl)) as Q3. cbn in Q1, Q2, Q3.
  destruct (Hf (e_key a) (e_key b) (e_key c)) as [H|[H|H]]; try congruence; apply Ho; auto.
Qed.

Lemma t_update_returns t u : fewCollisions -> tupok t -> tupok u -> exists r, m_update t u = Ok r.
Proof.
  intros Hf Ht Hu. destruct (m_update_ok (kok := kok) t u (proj1 Ht) (proj1 Hu)) as [[Hc _]|(_ & r & E1 & _)]; eauto.
  exfalso. apply (tclash_overfull (vok := eok (kok := kok))) in Hc; [|apply Ht|apply Hu].
  revert Hc. apply not_overfull; intros h; apply few_le; auto; [apply Ht|apply Hu].
Qed.

Lemma teq_meets' a b : tupok a -> tupok b -> @veq _ mapKey a b = true <-> meets b (mget a).
Proof.
  intros Ha Hb. rewrite <- (teq_meets b a) by auto. split; apply (veq_sym (vok := tupok)); auto.
Qed.

Lemma meets_ext x F G : (forall j, kok j -> F j = G j) -> meets x F <-> meets x G.
Proof. intros H. split; intros HM j Hj; specialize (HM j Hj); rewrite (H j Hj) in *; auto. Qed.

(** ** Cartesian products *)

Definition overAll (F : X -> option V) (es : list tuple) : X -> option V := fold_left over es F.

Lemma overAll_ext es : forall F G, (forall j, kok j -> F j = G j) -> forall j, kok j -> overAll F es j = overAll G es j.
Proof.
  induction es as [|e es IH]; intros F G H j Hj; cbn; auto. apply IH; auto.
  intros k Hk. unfold over. destruct (mget e k); auto.
Qed.

Lemma r_build_mem rels : forall b t b', (forall r, In r rels -> relok r) -> bok (vok := tupok) b -> tupok t ->
  r_build b t rels = Ok b' ->
  bok (vok := tupok) b' /\ forall x, tupok x -> bmem b' x <-> bmem b x \/
    exists es, Forall2 (fun r e => In e (sel r)) rels es /\ meets x (overAll (mget t) es).
Proof.
  induction rels as [|r rels IH]; intros b t b' Hr Hb Ht Eb; cbn [r_build] in Eb.
  - destruct (sb_add_mem b t b' Hb Ht Eb) as [Hb' HM]. split; auto. intros x Hx. rewrite HM, teq_meets' by auto.
    split; (intros [H|H]; [auto|right]).
    + exists []. split; [constructor|auto].
    + destruct H as (es & HF & H). inversion HF; subst. auto.
  - assert (Hrr : relok r) by (apply Hr; left; auto).
    rewrite (s_elements_ok (vok := tupok)) in Eb by auto. cbn [bind] in Eb.
    destruct (fold_mem (vok := tupok) (fun b v => t' <- m_update t v ;; r_build b t' rels)
      (fun e x => exists es, Forall2 (fun r e => In e (sel r)) rels es /\ meets x (overAll (over (mget t) e) es)) (sel r)) with (b := b) (b' := b')
      as [Hb' HM]; auto.
    + intros b1 e b2 He Hb1 Es. destruct (m_update t e) as [t'| |] eqn:Eu; try discriminate. cbn [bind] in Es.
      pose proof (sok_allok r Hrr e He) as Hoe.
      destruct (t_update_ok t e t' Ht Hoe Eu) as [Ht' HG].
      destruct (IH b1 t' b2 (fun r Hin => Hr r (or_intror Hin)) Hb1 Ht' Es) as [Hb2 HM2]. split; auto.
      intros x Hx. rewrite HM2 by auto. split; (intros [H|(es & HF & H)]; [auto|right; exists es; split; auto]).
      * eapply meets_ext; [|exact H]. intros j Hj. apply overAll_ext; auto. intros k Hk. symmetry. auto.
      * eapply meets_ext; [|exact H]. intros j Hj. apply overAll_ext; auto.
    + split; auto. intros x Hx. rewrite HM by auto. split; (intros [H|H]; [auto|right]).
      * destruct H as (e & He & es & HF & H). exists (e :: es). split; auto.
      * destruct H as (es & HF & H). inversion HF as [|? e ? es' He HF']; subst. exists e. split; auto. exists es'. auto.
Qed.

Lemma r_build_returns rels : fewCollisions -> forall b t, (forall r, In r rels -> relok r) -> bok (vok := tupok) b -> tupok t ->
  exists b', r_build b t rels = Ok b' /\ bok (vok := tupok) b'.
Proof.
  intros Hf. induction rels as [|r rels IH]; intros b t Hr Hb Ht; cbn [r_build].
  - destruct (sb_add_ok (vok := tupok) b t Hb Ht) as (b' & E1 & Hb' & _). eauto.
  - assert (Hrr : relok r) by (apply Hr; left; auto).
    rewrite (s_elements_ok (vok := tupok)) by auto. cbn [bind].
    apply (fold_returns (fun b => bok (vok := tupok) b)); auto. intros b1 e He Hb1.
    pose proof (sok_allok r Hrr e He) as Hoe.
    destruct (t_update_returns t e Hf Ht Hoe) as (t' & Eu). rewrite Eu. cbn [bind].
    apply IH; auto; [intros; apply Hr; right; auto|]. eapply t_update_ok; [exact Ht|exact Hoe|exact Eu].
Qed.

Lemma r_cartesian_ok rels r : (forall r, In r rels -> relok r) -> r_cartesian rels = Ok r ->
  relok r /\ forall x, tupok x -> smem r x <->
    exists es, Forall2 (fun r e => In e (sel r)) rels es /\ meets x (overAll (fun _ => None) es).
Proof.
  intros Hr E1. unfold r_cartesian in E1. destruct (r_build _ _ _) as [b| |] eqn:Eb; try discriminate. cbn [bind] in E1.
  injection E1 as <-. destruct (r_build_mem rels _ _ b Hr (bok_empty (vok := tupok)) tupok_empty Eb) as [Hb HM]. split; auto.
  intros x Hx. change (smem _ x) with (bmem b x). rewrite HM by auto. split; [|auto].
  intros [H|H]; auto. exfalso. apply H. reflexivity.
Qed.

Lemma r_cartesian_returns rels : fewCollisions -> (forall r, In r rels -> relok r) -> exists r, r_cartesian rels = Ok r.
Proof.
  intros Hf Hr. unfold r_cartesian.
  destruct (r_build_returns rels Hf (mkSB emptyTree) m_empty Hr (bok_empty (vok := tupok)) tupok_empty) as (b & -> & _).
  cbn [bind]. eauto.
Qed.

(** ** New *)

Lemma r_row_ok header row : (forall h, In h header -> kok h) -> (forall v, In v row -> valok v) -> length row = length header ->
  exists t, r_row header row = Ok t /\ tupok t /\
    forall j, kok j -> mget t j = option_map e_val (klast (map (fun hv => mkEntry (fst hv) (snd hv)) (List.combine header row)) j).
Proof.
  intros Hh Hv HL. unfold r_row.
  destruct (m_new_ok (kok := kok) (V := V) []) as (t0 & E0 & Ht0 & HR0); [intros ? []|].
  unfold r_newTuple. rewrite E0. cbn [bind].
  assert (HT0 : tupok t0).
  { apply tupok_mk; auto. intros j v Hj H. unfold mget in H. rewrite HR0 in H by auto. discriminate. }
  assert (HG : forall l t, tupok t -> (forall hv, In hv l -> kok (fst hv) /\ valok (snd hv)) ->
    exists r, foldM (fun t hv => m_with t (fst hv) (snd hv)) t l = Ok r /\ tupok r /\
      forall j, kok j -> mget r j = match klast (map (fun hv => mkEntry (fst hv) (snd hv)) l) j with
        | Some e => Some (e_val e) | None => mget t j end).
  { induction l as [|hv l IH]; intros t Ht Hl; cbn [foldM].
    - exists t. split; auto.
    - destruct (Hl hv (or_introl eq_refl)) as [H1 H2].
      destruct (t_with_ok' t _ _ Ht H1 H2) as (r1 & -> & Hr1 & HR1). cbn [bind].
      destruct (IH r1 Hr1) as (r & E2 & Hr & HR); [intros; apply Hl; right; auto|].
      exists r. split; auto. split; auto. intros j Hj. rewrite HR, HR1 by auto. cbn [map].
      unfold klast at 2. cbn [rev]. unfold klk at 1. rewrite find_app. fold (klk (rev (map (fun hv => mkEntry (fst hv) (snd hv)) l)) j).
      fold (klast (map (fun hv => mkEntry (fst hv) (snd hv)) l) j).
      destruct (klast _ j); auto. cbn. destruct (veq (fst hv) j); auto. }
  destruct (HG (List.combine header row) t0 HT0) as (r & E1 & Hr & HR).
  { intros hv Hi. destruct hv as [h v]. split; cbn; [apply Hh; eapply in_combine_l; eauto|apply Hv; eapply in_combine_r; eauto]. }
  exists r. split; auto. split; auto. intros j Hj. rewrite HR by auto. destruct (klast _ j); auto.
  unfold mget. rewrite HR0; auto.
Qed.

Lemma r_new_ok header rows : (forall h, In h header -> kok h) ->
  (forall row, In row rows -> length row = length header /\ forall v, In v row -> valok v) ->
  exists r, r_new header rows = Ok r /\ relok r /\
    forall x, tupok x -> smem r x <-> exists row t, In row rows /\ r_row header row = Ok t /\ @veq _ mapKey t x = true.
Proof.
  intros Hh Hrows. unfold r_new.
  assert (HG : forall rows s, relok s -> (forall row, In row rows -> length row = length header /\ forall v, In v row -> valok v) ->
    exists r, foldM (fun r row => if Nat.eqb (length row) (length header) then t <- r_row header row ;; s_with r t else Panic) s rows = Ok r /\ relok r /\
    forall x, tupok x -> smem r x <-> smem s x \/ exists row t, In row rows /\ r_row header row = Ok t /\ @veq _ mapKey t x = true).
  { clear rows Hrows. induction rows as [|row rows IH]; intros s Hs Hrows; cbn [foldM].
    - exists s. split; auto. split; auto. intros x Hx. split; auto. intros [H|(row & t & [] & _)]; auto.
    - destruct (Hrows row (or_introl eq_refl)) as [HL Hv]. rewrite (proj2 (Nat.eqb_eq _ _) HL).
      destruct (r_row_ok header row Hh Hv HL) as (t & Et & Ht & _). rewrite Et. cbn [bind].
      destruct (s_with_ok (vok := tupok) s t Hs Ht) as (s1 & -> & Hs1 & HL1 & _). cbn [bind].
      destruct (IH s1 Hs1) as (r & E2 & Hr & HR); [intros; apply Hrows; right; auto|].
      exists r. split; auto. split; auto. intros x Hx. rewrite HR by auto. unfold smem at 1. rewrite HL1 by auto. fold (smem s x).
      split.
      + intros [H|(row' & t' & Hi & H)]; [|right; exists row', t'; cbn; auto].
        destruct (veq t x) eqn:Eq; [right; exists row, t; cbn; auto|auto].
      + intros [H|(row' & t' & [<-|Hi] & H1 & H2)].
        * left. destruct (veq t x); [discriminate|auto].
        * left. assert (t' = t) by congruence. subst t'. rewrite H2. discriminate.
        * right. exists row', t'. auto. }
  destruct (HG rows s_empty (sok_empty (vok := tupok)) Hrows) as (r & E1 & Hr & HR). exists r. split; auto. split; auto.
  intros x Hx. rewrite HR by auto. split; auto. intros [H|H]; auto. exfalso. apply H. reflexivity.
Qed.

Lemma r_new_mismatch header rows row : (forall h, In h header -> kok h) ->
  (forall row, In row rows -> forall v, In v row -> valok v) ->
  In row rows -> length row <> length header -> r_new header rows = Panic.
Proof.
  intros Hh Hv Hi HL. unfold r_new.
  assert (HG : forall rows s, relok s -> (forall row, In row rows -> forall v, In v row -> valok v) -> In row rows ->
    foldM (fun r row => if Nat.eqb (length row) (length header) then t <- r_row header row ;; s_with r t else Panic) s rows = Panic).
  { clear rows Hv Hi. induction rows as [|row' rows IH]; intros s Hs Hv Hi; [destruct Hi|]. cbn [foldM].
    destruct (Nat.eqb_spec (length row') (length header)) as [HL'|HL']; [|reflexivity].
    destruct (r_row_ok header row' Hh (Hv row' (or_introl eq_refl)) HL') as (t & Et & Ht & _). rewrite Et. cbn [bind].
    destruct (s_with_ok (vok := tupok) s t Hs Ht) as (s1 & -> & Hs1 & _). cbn [bind].
    destruct Hi as [<-|Hi]; [congruence|]. apply IH; auto. intros; eapply Hv; [right|]; eauto. }
  apply HG; auto. apply (sok_empty (vok := tupok)).
Qed.

(** ** Project *)

Lemma r_project_ok s attrs : relok s -> (forall k, In k attrs -> kok k) ->
  exists r, r_project s attrs = Ok r /\ relok r /\
    forall x, tupok x -> smem r x <-> exists t, In t (sel s) /\ meets x (fun j => if hasAttr attrs j then mget t j else None).
Proof.
  intros Hs Ha. set (g := fun t : tuple => orElse t (m_project t attrs)).
  assert (HP : forall t, In t (sel s) -> m_project t attrs = Ok (g t) /\ tupok (g t) /\
     forall j, kok j -> mget (g t) j = if hasAttr attrs j then mget t j else None).
  { intros t Ht. destruct (t_project_ok t attrs (sok_allok s Hs t Ht) Ha) as (r & Er & Hr & HR). unfold g. rewrite Er. auto. }
  destruct (s_mapM_mem (vok := tupok) (uok := tupok) s (fun t => m_project t attrs) g Hs) as (r & E1 & Hr & HR).
  { intros v Hv. destruct (HP v Hv) as (H1 & H2 & _). auto. }
  exists r. split; auto. split; auto. intros x Hx. rewrite HR by auto.
  split; intros (t & Ht & H); exists t; (split; [auto|]); destruct (HP t Ht) as (H1 & H2 & H3).
  - apply teq_meets' in H; auto. eapply meets_ext; [|exact H]. intros; symmetry; auto.
  - apply teq_meets'; auto. eapply meets_ext; [|exact H]. auto.
Qed.

(** ** Join *)

Definition header (s : relation) (hs : list X) : Prop :=
  (forall k, In k hs -> kok k) /\
  forall t, In t (sel s) -> forall j, kok j -> isSome (mget t j) = hasAttr hs j.

Definition agrees (x a : tuple) (attrs : list X) : Prop :=
  forall j, kok j -> hasAttr attrs j = true -> opteq (mget x j) (mget a j).

(** [x] is in the natural join of [s] and [t]. *)
Definition joined (hs ht : list X) (s t : relation) (x : tuple) : Prop :=
  (forall j, kok j -> isSome (mget x j) = (hasAttr hs j || hasAttr ht j)%bool) /\
  (exists a, In a (sel s) /\ agrees x a hs) /\ (exists b, In b (sel t) /\ agrees x b ht).

Lemma opteq_isSome a b : opteq a b -> isSome a = isSome b.
Proof. destruct a, b; cbn; tauto. Qed.

Lemma joined_pairs hs ht s t x : relok s -> relok t -> header s hs -> header t ht -> tupok x ->
  joined hs ht s t x <->
  exists a b, In a (sel s) /\ In b (sel t) /\
    (forall j, kok j -> hasAttr hs j = true -> hasAttr ht j = true -> opteq (mget a j) (mget b j)) /\
    meets x (over (mget a) b).
Proof.
  intros Hs Ht [_ Hhs] [_ Hht] Hx. split.
  - intros (HD & (a & Ha & HA) & (b & Hb & HB)). exists a, b. split; auto. split; auto.
    pose proof (sok_allok s Hs a Ha) as Hoa. pose proof (sok_allok t Ht b Hb) as Hob. split.
    + intros j Hj H1 H2. apply (opteq_trans (mget a j) (mget x j) (mget b j)); try mvals; auto.
      apply opteq_sym; try mvals. auto.
    + intros j Hj. unfold over. specialize (HD j Hj). specialize (Hhs a Ha j Hj). specialize (Hht b Hb j Hj).
      specialize (HA j Hj). specialize (HB j Hj).
      destruct (mget b j) as [v|] eqn:Eb; cbn in Hht.
      * apply HB. auto.
      * rewrite <- Hht in HD. rewrite orb_false_r in HD. destruct (mget a j) as [w|] eqn:Ea; cbn in Hhs.
        -- apply HA. auto.
        -- rewrite <- Hhs in HD. destruct (mget x j); [discriminate|]. exact Logic.I.
  - intros (a & b & Ha & Hb & HC & HM).
    pose proof (sok_allok s Hs a Ha) as Hoa. pose proof (sok_allok t Ht b Hb) as Hob.
    split; [|split].
    + intros j Hj. rewrite (opteq_isSome _ _ (HM j Hj)). unfold over. rewrite <- (Hhs a Ha j Hj), <- (Hht b Hb j Hj).
      destruct (mget b j); cbn; auto. destruct (isSome (mget a j)); auto. rewrite orb_false_r. auto.
    + exists a. split; auto. intros j Hj H1. specialize (HM j Hj). unfold over in HM.
      destruct (mget b j) as [v|] eqn:Eb; auto. rewrite <- Eb in HM.
      apply (opteq_trans (mget x j) (mget b j) (mget a j)); try mvals; auto.
      apply opteq_sym; try mvals. apply HC; auto.
      rewrite <- (Hht b Hb j Hj), Eb. reflexivity.
    + exists b. split; auto. intros j Hj H1. specialize (HM j Hj). unfold over in HM.
      rewrite <- (Hht b Hb j Hj) in H1. destruct (mget b j); [auto|discriminate].
Qed.

Lemma trueSet_ok : exists ts, r_trueSet = Ok ts /\ relok ts /\
  forall x, tupok x -> smem ts x <-> forall j, kok j -> mget x j = None.
Proof.
  unfold r_trueSet, r_newTuple.
  destruct (m_new_ok (kok := kok) (V := V) []) as (t0 & E0 & Ht0 & HR0); [intros ? []|].
  rewrite E0. cbn [bind].
  assert (HG : forall j, kok j -> mget t0 j = None) by (intros j Hj; unfold mget; rewrite HR0; auto).
  assert (HT0 : tupok t0) by (apply tupok_mk; auto; intros j v Hj H; rewrite HG in H by auto; discriminate).
  destruct (s_new_ok (vok := tupok) [t0]) as (r & E1 & Hr & HR).
  { intros x [<-|[]]. auto. }
  exists r. split; auto. split; auto. intros x Hx. unfold smem. rewrite HR by auto. cbn [findLast].
  destruct (@veq _ mapKey t0 x) eqn:Eq.
  - assert (HM : findLast [t0] x = Some t0) by (unfold findLast; cbn; change (match m_equal t0 x with Ok b => b | _ => false end) with (@veq _ mapKey t0 x); rewrite Eq; auto).
    rewrite HM. split; [intros _|discriminate]. apply teq_meets' in Eq; auto. intros j Hj. specialize (Eq j Hj). rewrite HG in Eq by auto.
    apply opteq_None. auto.
  - assert (HM : findLast [t0] x = None) by (apply findLast_None; intros e [<-|[]]; auto).
    rewrite HM. split; [congruence|]. intros H. exfalso. apply not_true_iff_false in Eq. apply Eq. apply teq_meets'; auto.
    intros j Hj. rewrite HG, H by auto. exact Logic.I.
Qed.

(** The attributes of any tuple of [s]. *)
Lemma any_keys s : relok s -> sel s <> [] ->
  exists t ks, s_any s = Ok t /\ In t (sel s) /\ m_keys t = Ok ks /\ sok kok ks /\
    forall j, kok j -> isSome (lookup (sel ks) j) = isSome (mget t j).
Proof.
  intros Hs Hn. rewrite (s_any_ok (vok := tupok)) by auto. destruct (sel s) as [|t l] eqn:El; [congruence|].
  assert (Ht : In t (sel s)) by (rewrite El; left; auto). pose proof (sok_allok s Hs t Ht) as [Hot _].
  destruct (m_keys_ok (kok := kok) t Hot) as (ks & E1 & Hks & HK). exists t, ks. split; auto. split; [left; auto|]. split; auto. split; auto.
  intros j Hj. rewrite HK by auto. unfold mget. destruct (klk (mel t) j); auto.
Qed.

Lemma hasAttr_lookup (l : list X) j : hasAttr l j = isSome (lookup l j).
Proof.
  unfold hasAttr. destruct (lookup l j) as [e|] eqn:El; cbn.
  - apply lookup_Some in El. apply existsb_exists. eauto.
  - apply not_true_iff_false. intros H. apply existsb_exists in H as (k & Hk & Hq).
    rewrite (proj1 (lookup_None _ _) El k Hk) in Hq. discriminate.
Qed.

(** Two tuples have the same projection. *)
Lemma project_eq a b l pa pb : tupok a -> tupok b -> (forall k, In k l -> kok k) ->
  m_project a l = Ok pa -> m_project b l = Ok pb ->
  @veq _ mapKey pa pb = true <-> forall j, kok j -> hasAttr l j = true -> opteq (mget a j) (mget b j).
Proof.
  intros Ha Hb Hl E1 E2. destruct (t_project_ok a l Ha Hl) as (pa' & E1' & Hpa & HA).
  destruct (t_project_ok b l Hb Hl) as (pb' & E2' & Hpb & HB). rewrite E1 in E1'. injection E1' as <-. rewrite E2 in E2'. injection E2' as <-.
  rewrite teq_meets by auto. split; intros H j Hj.
  - intros Hp. specialize (H j Hj). rewrite HA, HB, Hp in H by auto. auto.
  - rewrite HA, HB by auto. specialize (H j Hj). destruct (hasAttr l j); cbn; auto.
Qed.

(** Grouping a relation by its projection to [l]. *)
Lemma group_ok s (key : tuple -> res tuple) g : relok s ->
  (forall t, In t (sel s) -> key t = Ok (g t) /\ tupok (g t)) ->
  exists G, s_groupByM s key = Ok G /\ mok tupok G /\
    (forall k, tupok k ->
       match mget G k with
       | Some r => relok r /\ sel r <> [] /\ forall t, In t (sel r) <-> In t (sel s) /\ @veq _ mapKey (g t) k = true
       | None => forall t, In t (sel s) -> @veq _ mapKey (g t) k = false
       end).
Proof.
  intros Hs Hk. rewrite (s_groupByM_pure tupok s key g); auto; [|intros v Hv; apply Hk; auto].
  destruct (s_groupBy_ok (vok := tupok) (kok := tupok) g s Hs) as (G & E1 & HG & HR); [intros v Hv; apply Hk; auto|].
  exists G. split; auto. split; auto. intros k Hkk. specialize (HR k Hkk). unfold mget.
  destruct (klk (mel G) k) as [e|] eqn:Ek; cbn [option_map]; auto. apply klk_Some in Ek as [_ Hq]. destruct HR as (Hr & (v & Hv & Hkey) & HL). split; auto.
  assert (HP : forall t, In t (sel (e_val e)) <-> In t (sel s) /\ @veq _ mapKey (g t) k = true).
  { intros t. rewrite <- (filter_In (fun v => veq (g v) k)).
    pose proof (lookup_perm (vok := tupok) (sel (e_val e)) (filter (fun v => veq (g v) k) (sel s))) as HP.
    assert (HPP : Permutation (sel (e_val e)) (filter (fun v => veq (g v) k) (sel s))).
    { apply HP; auto.
      - apply (sok_distinct (vok := tupok)); auto.
      - apply distinct_filter. apply (sok_distinct (vok := tupok)); auto.
      - apply (sok_allok (vok := tupok)); auto.
      - apply allok_filter. apply (sok_allok (vok := tupok)); auto. }
    split; apply Permutation_in; auto. apply Permutation_sym; auto. }
  split; auto. intros Hn. assert (Hin : In v (sel (e_val e))); [|rewrite Hn in Hin; destruct Hin].
  apply HP. split; auto. rewrite <- Hkey. apply Hq.
Qed.

Lemma smem_meets s x : relok s -> tupok x -> smem s x <-> exists t, In t (sel s) /\ meets x (mget t).
Proof.
  intros Hs Hx. rewrite smem_iff. split; intros (t & Ht & H); exists t; (split; [auto|]);
    apply (teq_meets' t x); auto; apply (sok_allok s Hs); auto.
Qed.

Lemma over_none t j : over (fun _ => None) t j = mget t j.
Proof. unfold over. destruct (mget t j); auto. Qed.

Lemma two_forall2 {A B} (P : A -> B -> Prop) a b (es : list B) :
  Forall2 P [a; b] es <-> exists x y, es = [x; y] /\ P a x /\ P b y.
Proof.
  split.
  - intros H. inversion H as [|? x ? l H1 H2]; subst. inversion H2 as [|? y ? l2 H3 H4]; subst. inversion H4; subst. eauto 6.
  - intros (x & y & -> & H1 & H2). auto.
Qed.

Lemma pair_over a b x : meets x (overAll (fun _ => None) [a; b]) <-> meets x (over (mget a) b).
Proof. apply meets_ext. intros j Hj. cbn. unfold over. destruct (mget b j); auto. destruct (mget a j); auto. Qed.

Lemma joined_header hs ht s t r : (forall k, In k hs -> kok k) -> (forall k, In k ht -> kok k) -> relok r ->
  (forall x, tupok x -> smem r x <-> joined hs ht s t x) -> header r (hs ++ ht).
Proof.
  intros H1 H2 Hr HM. split.
  - intros k Hk. apply in_app_iff in Hk as [Hk|Hk]; auto.
  - intros x Hi j Hj. pose proof (sok_allok r Hr x Hi) as Hx.
    assert (Hm : smem r x) by (apply smem_iff; exists x; split; auto; apply (veq_refl (vok := tupok)); auto).
    apply HM in Hm as [HD _]; auto. rewrite HD by auto. unfold hasAttr. rewrite existsb_app. reflexivity.
Qed.

(** All pairs of tuples of [s] and [t] have the same common attributes. *)
Definition regular (s t : relation) : Prop := forall a a' b b' j, In a (sel s) -> In a' (sel s) -> In b (sel t) -> In b' (sel t) -> kok j ->
  (isSome (mget a j) && isSome (mget b j) = isSome (mget a' j) && isSome (mget b' j))%bool.

Lemma header_regular s t hs ht : header s hs -> header t ht -> regular s t.
Proof. intros [_ H1] [_ H2] a a' b b' j Ha Ha' Hb Hb' Hj. rewrite !(H1 a), !(H1 a'), !(H2 b), !(H2 b'); auto. Qed.

(** The attributes that both tuples have are equal. *)
Definition compatible (a b : tuple) : Prop :=
  forall j, kok j -> isSome (mget a j) = true -> isSome (mget b j) = true -> opteq (mget a j) (mget b j).

Lemma compatible_sym a b : tupok a -> tupok b -> compatible a b -> compatible b a.
Proof. intros Ha Hb H j Hj H1 H2. apply opteq_sym; try mvals. auto. Qed.

Lemma over_comm a b x : tupok a -> tupok b -> tupok x -> compatible a b -> meets x (over (mget a) b) <-> meets x (over (mget b) a).
Proof.
  assert (HH : forall a b, tupok a -> tupok b -> tupok x -> compatible a b -> meets x (over (mget a) b) -> meets x (over (mget b) a)).
  { intros a0 b0 Ha Hb Hx HC HM j Hj. specialize (HM j Hj). specialize (HC j Hj). unfold over in *.
    destruct (mget a0 j) as [v|] eqn:Ea, (mget b0 j) as [w|] eqn:Eb; auto. cbn in HC.
    destruct (mget x j) as [u|] eqn:Ex; cbn in *; auto.
    assert (valok u) by (apply (mget_valok x j); auto). assert (valok v) by (apply (mget_valok a0 j); auto).
    assert (valok w) by (apply (mget_valok b0 j); auto).
    apply (veq_trans (vok := valok) u w v); auto. apply (veq_sym (vok := valok)); auto. }
  intros Ha Hb Hx HC. split; apply HH; auto. apply compatible_sym; auto.
Qed.

Lemma true_tuples s ts : relok s -> relok ts ->
  (forall x, tupok x -> smem ts x <-> forall j, kok j -> mget x j = None) ->
  seqv tupok s ts -> forall a j, In a (sel s) -> kok j -> mget a j = None.
Proof.
  intros Hs Hts HT HQ a j Ha Hj. pose proof (sok_allok s Hs a Ha) as Hoa.
  apply (proj1 (HT a Hoa)); auto. apply (HQ a Hoa). fold (smem s a). apply smem_iff.
  exists a. split; auto. apply (veq_refl (vok := tupok)); auto.
Qed.

Lemma joined_sym hs ht s t x : joined hs ht s t x <-> joined ht hs t s x.
Proof.
  unfold joined. split; intros (HD & HA & HB); (split; [intros j Hj; rewrite orb_comm; auto|auto]).
Qed.

Lemma r_join2_pairs s t r : relok s -> relok t -> regular s t -> sel s = [] \/ sel t <> [] ->
  r_join2 s t = Ok r ->
  relok r /\ forall x, tupok x -> smem r x <->
    exists a b, In a (sel s) /\ In b (sel t) /\ compatible a b /\ meets x (over (mget a) b).
Proof.
  intros Hs Ht HR Hne E1. unfold r_join2 in E1.
  rewrite (s_isEmpty_ok (vok := tupok) s), (s_isEmpty_ok (vok := tupok) t) in E1 by auto.
  destruct (sel s) as [|a0 ls] eqn:Es.
  { cbn in E1. injection E1 as <-. split; auto. intros x Hx. unfold smem. rewrite Es. split; [cbn; congruence|].
    intros (a & b & [] & _). }
  rewrite <- Es in *. assert (HnS : sel s <> []) by (rewrite Es; discriminate).
  assert (HnT : sel t <> []) by (destruct Hne; [congruence|auto]). clear Hne ls a0 Es.
  destruct (sel t) as [|b0 lt] eqn:Et; [congruence|]. rewrite <- Et in *. clear b0 lt Et. cbn [orb] in E1.
  destruct trueSet_ok as (ts & E2 & Hts & HTS). rewrite E2 in E1. cbn [bind] in E1.
  destruct (s_equal_ok (vok := tupok) s ts Hs Hts) as (e1 & E3 & HE1). rewrite E3 in E1. cbn [bind] in E1.
  destruct e1.
  { injection E1 as <-. split; auto. intros x Hx. pose proof (true_tuples s ts Hs Hts HTS (proj1 HE1 eq_refl)) as HT.
    rewrite smem_meets by auto. split.
    - intros (b & Hb & HM). destruct (sel s) as [|a l] eqn:El; [congruence|]. assert (Ha : In a (a :: l)) by (left; auto).
      exists a, b. split; auto. split; auto. split.
      + intros j Hj H. rewrite (HT a j Ha Hj) in H. discriminate.
      + eapply meets_ext; [|exact HM]. intros j Hj. unfold over. rewrite (HT a j Ha Hj). destruct (mget b j); auto.
    - intros (a & b & Ha & Hb & _ & HM). exists b. split; auto. eapply meets_ext; [|exact HM]. intros j Hj. unfold over.
      rewrite (HT a j Ha Hj). destruct (mget b j); auto. }
  destruct (s_equal_ok (vok := tupok) t ts Ht Hts) as (e2 & E4 & HE2). rewrite E4 in E1. cbn [bind] in E1.
  destruct e2.
  { injection E1 as <-. split; auto. intros x Hx. pose proof (true_tuples t ts Ht Hts HTS (proj1 HE2 eq_refl)) as HT.
    rewrite smem_meets by auto. split.
    - intros (a & Ha & HM). destruct (sel t) as [|b l] eqn:El; [congruence|]. assert (Hb : In b (b :: l)) by (left; auto).
      exists a, b. split; auto. split; auto. split.
      + intros j Hj _ H. rewrite (HT b j Hb Hj) in H. discriminate.
      + eapply meets_ext; [|exact HM]. intros j Hj. unfold over. rewrite (HT b j Hb Hj). auto.
    - intros (a & b & Ha & Hb & _ & HM). exists a. split; auto. eapply meets_ext; [|exact HM]. intros j Hj. unfold over.
      rewrite (HT b j Hb Hj). auto. }
  clear ts E2 Hts HTS HE1 HE2 E3 E4.
  destruct (any_keys s Hs HnS) as (sa & sks & E2 & Hsa & E3 & Hsk & HSK). rewrite E2 in E1. cbn [bind] in E1. rewrite E3 in E1. cbn [bind] in E1.
  destruct (any_keys t Ht HnT) as (ta & tks & E4 & Hta & E5 & Htk & HTK). rewrite E4 in E1. cbn [bind] in E1. rewrite E5 in E1. cbn [bind] in E1.
  destruct (s_intersection_ok (vok := kok) sks tks Hsk Htk) as (common & E6 & Hc & HC). rewrite E6 in E1. cbn [bind] in E1.
  rewrite (s_elements_ok (vok := kok)) in E1 by auto. cbn [bind] in E1.
  assert (HCA : forall a b j, In a (sel s) -> In b (sel t) -> kok j -> hasAttr (sel common) j = (isSome (mget a j) && isSome (mget b j))%bool).
  { intros a b j Ha Hb Hj. rewrite (HR a sa b ta j), <- HSK, <- HTK, hasAttr_lookup by auto. specialize (HC j Hj). unfold isect in HC.
    destruct (lookup (sel sks) j), (lookup (sel tks) j); cbn; rewrite ?HC; auto. destruct HC as [-> | ->]; auto. }
  assert (HCok : forall k, In k (sel common) -> kok k) by (apply (sok_allok (vok := kok)); auto).
  clear E2 E3 E4 E5 E6 HSK HTK HC. set (commonAttrs := sel common) in *. clearbody commonAttrs.
  assert (HJ : forall x, tupok x -> (exists a b, In a (sel s) /\ In b (sel t) /\ compatible a b /\ meets x (over (mget a) b)) <->
     exists a b, In a (sel s) /\ In b (sel t) /\
     (forall j, kok j -> hasAttr commonAttrs j = true -> opteq (mget a j) (mget b j)) /\ meets x (over (mget a) b)).
  { intros x Hx. split; intros (a & b & Ha & Hb & H & HM); exists a, b; repeat (split; auto).
    - intros j Hj Hcj. rewrite (HCA a b) in Hcj by auto. apply andb_true_iff in Hcj as [H1 H2]. auto.
    - intros j Hj H1 H2. apply H; auto. rewrite (HCA a b), H1, H2; auto. }
  destruct commonAttrs as [|c0 cl] eqn:Ec.
  { destruct (r_cartesian_ok [s; t] r) as [Hr HM]; auto; [intros q [<-|[<-|[]]]; auto|]. split; auto.
    intros x Hx. rewrite HM, HJ by auto. split.
    - intros (es & HF & H). apply two_forall2 in HF as (a & b & -> & Ha & Hb). apply pair_over in H. exists a, b. repeat (split; auto).
      intros j Hj Hcj. discriminate.
    - intros (a & b & Ha & Hb & _ & H). exists [a; b]. split; [apply two_forall2; eauto|]. apply pair_over. auto. }
  rewrite <- Ec in *. assert (Hcne : commonAttrs <> []) by (rewrite Ec; discriminate). clear c0 cl Ec.
  set (g := fun t : tuple => orElse t (m_project t commonAttrs)).
  assert (HP : forall t, tupok t -> m_project t commonAttrs = Ok (g t) /\ tupok (g t)).
  { intros u Hu. destruct (t_project_ok u commonAttrs Hu HCok) as (p & Ep & Hp & _). unfold g. rewrite Ep. auto. }
  destruct (group_ok s (fun t => m_project t commonAttrs) g Hs) as (sG & E2 & HsG & HSG).
  { intros u Hu. apply HP, (sok_allok s Hs); auto. }
  destruct (group_ok t (fun t => m_project t commonAttrs) g Ht) as (tG & E3 & HtG & HTG).
  { intros u Hu. apply HP, (sok_allok t Ht); auto. }
  rewrite E2 in E1. cbn [bind] in E1. rewrite E3 in E1. cbn [bind] in E1.
  destruct (m_keys_ok (kok := tupok) sG HsG) as (sK & E4 & HsK & HSK). rewrite E4 in E1. cbn [bind] in E1.
  destruct (m_keys_ok (kok := tupok) tG HtG) as (tK & E5 & HtK & HTK). rewrite E5 in E1. cbn [bind] in E1.
  destruct (s_intersection_ok (vok := tupok) sK tK HsK HtK) as (cK & E6 & HcK & HCK). rewrite E6 in E1. cbn [bind] in E1.
  rewrite (s_elements_ok (vok := tupok)) in E1 by auto. cbn [bind] in E1.
  destruct (foldM _ _ (sel cK)) as [rb| |] eqn:Ef; try discriminate. cbn [bind] in E1.
  assert (HcKm : forall k, tupok k -> smem cK k <-> mget sG k <> None /\ mget tG k <> None).
  { intros k Hk. specialize (HCK k Hk). specialize (HSK k Hk). specialize (HTK k Hk). unfold smem, mget, isect in *.
    rewrite HSK, HTK in HCK. destruct (klk (mel sG) k), (klk (mel tG) k); cbn in *; rewrite ?HCK; try tauto.
    split; [intros _; split; discriminate|]. intros _. destruct HCK as [-> | ->]; discriminate. }
  match type of Ef with foldM ?F _ _ = _ => destruct (fold_mem (vok := tupok) F
    (fun k x => exists ga gb, mget sG k = Some ga /\ mget tG k = Some gb /\ exists a b, In a (sel ga) /\ In b (sel gb) /\ meets x (over (mget a) b)) (sel cK))
    with (b := mkSB (@emptyTree tuple)) (b' := rb) as [Hrb HM] end; auto using bok_empty.
  { intros b k b' Hk Hb Eb. pose proof (sok_allok cK HcK k Hk) as Hok.
    rewrite (m_get_ok (kok := tupok)) in Eb by auto. cbn [bind] in Eb. specialize (HSG k Hok). specialize (HTG k Hok).
    destruct (mget sG k) as [ga|]; [|discriminate].
    rewrite (m_get_ok (kok := tupok)) in Eb by auto. cbn [bind] in Eb.
    destruct (mget tG k) as [gb|]; [|discriminate].
    destruct (r_build_mem [ga; gb] b m_empty b') as [Hb' HM]; auto using tupok_empty.
    { intros q [<-|[<-|[]]]; [apply HSG|apply HTG]. }
    split; auto. intros x Hx. rewrite HM by auto. split; (intros [H|H]; [auto|right]).
    - destruct H as (es & HF & H). apply two_forall2 in HF as (a & b0 & -> & Ha & Hb0). exists ga, gb. split; auto. split; auto.
      exists a, b0. split; auto. split; auto. apply pair_over. exact H.
    - destruct H as (ga' & gb' & [= <-] & [= <-] & a & b0 & Ha & Hb0 & H). exists [a; b0]. split; [apply two_forall2; eauto|].
      apply (pair_over a b0 x) in H. exact H. }
  { apply (bok_empty (vok := tupok)). }
  injection E1 as <-. split; auto. intros x Hx. change (smem _ x) with (bmem rb x). rewrite HM, HJ by auto. split.
  - intros [H|(k & Hk & ga & gb & Ega & Egb & a & b & Ha & Hb & H)]; [exfalso; apply H; reflexivity|].
    pose proof (sok_allok cK HcK k Hk) as Hok. specialize (HSG k Hok). specialize (HTG k Hok). rewrite Ega in HSG. rewrite Egb in HTG.
    apply HSG in Ha as [Ha Hqa]. apply HTG in Hb as [Hb Hqb].
    pose proof (sok_allok s Hs a Ha) as Hoa. pose proof (sok_allok t Ht b Hb) as Hob.
    destruct (HP a Hoa) as [Epa Hpa]. destruct (HP b Hob) as [Epb Hpb].
    exists a, b. split; auto. split; auto. split; auto.
    apply (project_eq a b commonAttrs (g a) (g b)); auto. apply (veq_trans (vok := tupok) (g a) k (g b)); auto.
    apply (veq_sym (vok := tupok)); auto.
  - intros (a & b & Ha & Hb & HA & H). right.
    pose proof (sok_allok s Hs a Ha) as Hoa. pose proof (sok_allok t Ht b Hb) as Hob.
    destruct (HP a Hoa) as [Epa Hpa]. destruct (HP b Hob) as [Epb Hpb].
    apply (project_eq a b commonAttrs (g a) (g b)) in HA; auto.
    assert (Hm : smem cK (g a)).
    { apply HcKm; auto. split.
      - intros Hn. specialize (HSG (g a) Hpa). rewrite Hn in HSG. specialize (HSG a Ha). rewrite (veq_refl (vok := tupok)) in HSG by auto. discriminate.
      - intros Hn. specialize (HTG (g a) Hpa). rewrite Hn in HTG. specialize (HTG b Hb).
        rewrite (veq_sym (vok := tupok) (g a) (g b)) in HTG by auto. discriminate. }
    apply smem_iff in Hm as (k & Hk & Hq). pose proof (sok_allok cK HcK k Hk) as Hok.
    assert (Hk2 : smem cK k) by (apply smem_iff; exists k; split; auto; apply (veq_refl (vok := tupok)); auto).
    apply HcKm in Hk2 as [Hn1 Hn2]; auto. exists k. split; auto. specialize (HSG k Hok). specialize (HTG k Hok).
    destruct (mget sG k) as [ga|]; [|congruence]. destruct (mget tG k) as [gb|]; [|congruence].
    exists ga, gb. split; auto. split; auto. exists a, b.
    apply (veq_sym (vok := tupok)) in Hq; auto.
    split; [apply HSG; auto|]. split; auto. apply HTG. split; auto.
    apply (veq_trans (vok := tupok) (g b) (g a) k); auto. apply (veq_sym (vok := tupok)); auto.
Qed.

Lemma r_join2_ok s t hs ht r : relok s -> relok t -> header s hs -> header t ht -> sel s = [] \/ sel t <> [] ->
  r_join2 s t = Ok r ->
  relok r /\ header r (hs ++ ht) /\ forall x, tupok x -> smem r x <-> joined hs ht s t x.
Proof.
  intros Hs Ht Hhs Hht Hne E1.
  destruct (r_join2_pairs s t r Hs Ht (header_regular _ _ _ _ Hhs Hht) Hne E1) as [Hr HM].
  assert (HM' : forall x, tupok x -> smem r x <-> joined hs ht s t x).
  { intros x Hx. rewrite HM, joined_pairs by auto. destruct Hhs as [_ H1]. destruct Hht as [_ H2].
    split; intros (a & b & Ha & Hb & HC & H); exists a, b; split; auto; split; auto; split; auto; intros j Hj.
    - rewrite <- (H1 a Ha j Hj), <- (H2 b Hb j Hj). auto.
    - rewrite (H1 a Ha j Hj), (H2 b Hb j Hj). auto. }
  split; auto. split; auto. eapply joined_header; eauto; [apply Hhs|apply Hht].
Qed.

(** The projection of a tuple. *)
Definition pr (x : tuple) (attrs : list X) : tuple := orElse x (m_project x attrs).

Lemma pr_ok x attrs : tupok x -> (forall k, In k attrs -> kok k) ->
  m_project x attrs = Ok (pr x attrs) /\ tupok (pr x attrs) /\
  forall j, kok j -> mget (pr x attrs) j = if hasAttr attrs j then mget x j else None.
Proof.
  intros Hx Ha. destruct (t_project_ok x attrs Hx Ha) as (r & Er & Hr & HR). unfold pr. rewrite Er. auto.
Qed.

Lemma agrees_project s hs x : relok s -> header s hs -> tupok x ->
  (exists a, In a (sel s) /\ agrees x a hs) <-> smem s (pr x hs).
Proof.
  intros Hs [Hh1 Hh2] Hx. destruct (pr_ok x hs Hx Hh1) as (_ & Hp & HP). rewrite smem_meets by auto.
  split; intros (a & Ha & H); exists a; (split; [auto|]); intros j Hj; specialize (H j Hj).
  - rewrite HP by auto. specialize (Hh2 a Ha j Hj). destruct (hasAttr hs j); auto. destruct (mget a j); [discriminate|exact Logic.I].
  - intros Hq. rewrite HP, Hq in H by auto. auto.
Qed.

Lemma joined_project hs ht s t x : relok s -> relok t -> header s hs -> header t ht -> tupok x ->
  joined hs ht s t x <->
  (forall j, kok j -> isSome (mget x j) = (hasAttr hs j || hasAttr ht j)%bool) /\ smem s (pr x hs) /\ smem t (pr x ht).
Proof. intros Hs Ht Hhs Hht Hx. unfold joined. rewrite !agrees_project by auto. tauto. Qed.

Lemma smem_veq s x y : relok s -> tupok x -> tupok y -> (forall j, kok j -> mget x j = mget y j) -> smem s x <-> smem s y.
Proof.
  intros Hs Hx Hy H. rewrite !smem_meets by auto. split; intros (t & Ht & HM); exists t; (split; [auto|]); intros j Hj;
    specialize (HM j Hj); rewrite (H j Hj) in *; auto.
Qed.

Definition joinedAll (ps : list (relation * list X)) (x : tuple) : Prop :=
  (forall j, kok j -> isSome (mget x j) = hasAttr (flat_map snd ps) j) /\
  forall p, In p ps -> smem (fst p) (pr x (snd p)).

Lemma r_joins_ok ps : forall done acc r,
  relok acc -> header acc (flat_map snd done) -> (forall x, tupok x -> smem acc x <-> joinedAll done x) ->
  (forall p, In p (done ++ ps) -> relok (fst p) /\ header (fst p) (snd p)) ->
  (forall p, In p ps -> sel (fst p) <> []) ->
  foldM r_join2 acc (map fst ps) = Ok r ->
  relok r /\ header r (flat_map snd (done ++ ps)) /\ forall x, tupok x -> smem r x <-> joinedAll (done ++ ps) x.
Proof.
  induction ps as [|[t ht] ps IH]; intros done acc r Hacc Hh HM Hok Hne E1; cbn [map foldM fst] in E1.
  - injection E1 as <-. rewrite app_nil_r. auto.
  - destruct (r_join2 acc t) as [acc'| |] eqn:E2; try discriminate. cbn [bind] in E1.
    destruct (Hok (t, ht)) as [Ht Hht]; [apply in_or_app; right; left; auto|]. cbn [fst snd] in Ht, Hht.
    assert (HnT : sel t <> []) by (apply (Hne (t, ht)); left; auto).
    destruct (r_join2_ok acc t _ ht acc' Hacc Ht Hh Hht (or_intror HnT) E2) as (Hacc' & Hh' & HM').
    assert (Heq : done ++ (t, ht) :: ps = (done ++ [(t, ht)]) ++ ps) by (rewrite <- app_assoc; auto). rewrite Heq in *.
    assert (Hfm : flat_map snd (done ++ [(t, ht)]) = flat_map snd done ++ ht).
    { rewrite flat_map_app. cbn. rewrite app_nil_r. auto. }
    apply IH with (acc := acc'); auto.
    + rewrite Hfm. auto.
    + intros x Hx. rewrite HM', joined_project by auto. unfold joinedAll. rewrite Hfm.
      assert (HD : forall j, hasAttr (flat_map snd done ++ ht) j = (hasAttr (flat_map snd done) j || hasAttr ht j)%bool).
      { intros j. unfold hasAttr. apply existsb_app. }
      destruct (pr_ok x (flat_map snd done) Hx (proj1 Hh)) as (_ & Hp & HP). rewrite (HM _ Hp). unfold joinedAll.
      assert (HPP : forall p, In p done -> smem (fst p) (pr (pr x (flat_map snd done)) (snd p)) <-> smem (fst p) (pr x (snd p))).
      { intros [q hq] Hq. destruct (Hok (q, hq)) as [Hqr Hqh]; [apply in_or_app; left; apply in_or_app; auto|]. cbn [fst snd] in *.
        destruct (pr_ok x hq Hx (proj1 Hqh)) as (_ & Hp1 & HP1). destruct (pr_ok (pr x (flat_map snd done)) hq Hp (proj1 Hqh)) as (_ & Hp2 & HP2).
        apply smem_veq; auto. intros j Hj. rewrite HP1, HP2, HP by auto. destruct (hasAttr hq j) eqn:Eh; auto.
        assert (Hin : hasAttr (flat_map snd done) j = true); [|rewrite Hin; auto].
        unfold hasAttr in *. apply existsb_exists in Eh as (k & Hk & Hkj). apply existsb_exists. exists k. split; auto.
        apply in_flat_map. exists (q, hq). auto. }
      split.
      * intros (H1 & (H2 & H3) & H4). split; [intros j Hj; rewrite HD; auto|].
        intros p Hpi. apply in_app_iff in Hpi as [Hpi|[<-|[]]]; [apply HPP; auto|exact H4].
      * intros (H1 & H2). split; [intros j Hj; rewrite <- HD; auto|]. split; [split|].
        -- intros j Hj. rewrite HP by auto. destruct (hasAttr (flat_map snd done) j) eqn:Eh; auto.
           rewrite H1, HD, Eh by auto. reflexivity.
        -- intros p Hpi. apply HPP; auto. apply H2. apply in_or_app; auto.
        -- apply (H2 (t, ht)). apply in_or_app. right; left; auto.
    + intros p Hpi. apply Hne. right; auto.
Qed.

Lemma r_join_ok ps r : (forall p, In p ps -> relok (fst p) /\ header (fst p) (snd p)) ->
  (forall p, In p (tl ps) -> sel (fst p) <> []) -> r_join (map fst ps) = Ok r ->
  relok r /\ header r (flat_map snd ps) /\ forall x, tupok x -> smem r x <-> joinedAll ps x.
Proof.
  intros Hok Hne E1. destruct ps as [|[s hs] ps]; [discriminate|]. cbn [map r_join fst] in E1.
  destruct (Hok (s, hs) (or_introl eq_refl)) as [Hs Hhs]. cbn [fst snd] in *.
  apply (r_joins_ok ps [(s, hs)] s); auto.
  - cbn. rewrite app_nil_r. auto.
  - intros x Hx. unfold joinedAll. change (flat_map snd [(s, hs)]) with (hs ++ []). rewrite app_nil_r. destruct (pr_ok x hs Hx (proj1 Hhs)) as (_ & Hp & HP). split.
    + intros Hm. assert (HD : forall j, kok j -> isSome (mget x j) = hasAttr hs j).
      { apply smem_meets in Hm as (t & Ht & HM); auto. intros j Hj. rewrite (opteq_isSome _ _ (HM j Hj)). apply Hhs; auto. }
      split; auto. intros p [<-|[]]. cbn [fst snd]. apply (smem_veq s x (pr x hs)); auto.
      intros j Hj. rewrite HP by auto. specialize (HD j Hj). destruct (hasAttr hs j), (mget x j); auto; discriminate.
    + intros [HD Hm]. specialize (Hm (s, hs) (or_introl eq_refl)). cbn [fst snd] in Hm. apply (smem_veq s x (pr x hs)); auto.
      intros j Hj. rewrite HP by auto. specialize (HD j Hj). destruct (hasAttr hs j), (mget x j); auto; discriminate.
Qed.

Lemma r_join2_returns s t : fewCollisions -> relok s -> relok t -> exists r, r_join2 s t = Ok r.
Proof.
  intros Hf Hs Ht. unfold r_join2.
  rewrite (s_isEmpty_ok (vok := tupok) s), (s_isEmpty_ok (vok := tupok) t) by auto.
  destruct (sel s) as [|a0 ls] eqn:Es; [cbn; eauto|]. destruct (sel t) as [|b0 lt] eqn:Et; [cbn; eauto|]. cbn [orb].
  destruct trueSet_ok as (ts & E2 & Hts & _). rewrite E2. cbn [bind].
  destruct (s_equal_ok (vok := tupok) s ts Hs Hts) as (e1 & E3 & _). rewrite E3. cbn [bind]. destruct e1; eauto.
  destruct (s_equal_ok (vok := tupok) t ts Ht Hts) as (e2 & E4 & _). rewrite E4. cbn [bind]. destruct e2; eauto.
  rewrite (s_any_ok (vok := tupok) s), (s_any_ok (vok := tupok) t), Es, Et by auto. cbn [bind].
  assert (Ha : tupok a0) by (apply (sok_allok s Hs); rewrite Es; left; auto).
  assert (Hb : tupok b0) by (apply (sok_allok t Ht); rewrite Et; left; auto).
  destruct (m_keys_ok (kok := kok) a0 (proj1 Ha)) as (sks & E5 & Hsk & _). rewrite E5. cbn [bind].
  destruct (m_keys_ok (kok := kok) b0 (proj1 Hb)) as (tks & E6 & Htk & _). rewrite E6. cbn [bind].
  destruct (s_intersection_ok (vok := kok) sks tks Hsk Htk) as (common & E7 & Hc & _). rewrite E7. cbn [bind].
  rewrite (s_elements_ok (vok := kok)) by auto. cbn [bind].
  assert (HCok : forall k, In k (sel common) -> kok k) by (apply (sok_allok (vok := kok)); auto).
  set (ca := sel common) in *. clearbody ca. destruct ca as [|c0 cl] eqn:Ec.
  { apply r_cartesian_returns; auto. intros q [<-|[<-|[]]]; auto. }
  rewrite <- Ec in *.
  destruct (group_ok s (fun t => m_project t ca) (fun t => pr t ca) Hs) as (sG & E8 & HsG & HSG).
  { intros u Hu. pose proof (pr_ok u ca (sok_allok s Hs u Hu) HCok). tauto. }
  destruct (group_ok t (fun t => m_project t ca) (fun t => pr t ca) Ht) as (tG & E9 & HtG & HTG).
  { intros u Hu. pose proof (pr_ok u ca (sok_allok t Ht u Hu) HCok). tauto. }
  rewrite E8. cbn [bind]. rewrite E9. cbn [bind].
  destruct (m_keys_ok (kok := tupok) sG HsG) as (sK & E10 & HsK & HSK). rewrite E10. cbn [bind].
  destruct (m_keys_ok (kok := tupok) tG HtG) as (tK & E11 & HtK & HTK). rewrite E11. cbn [bind].
  destruct (s_intersection_ok (vok := tupok) sK tK HsK HtK) as (cK & E12 & HcK & HCK). rewrite E12. cbn [bind].
  rewrite (s_elements_ok (vok := tupok)) by auto. cbn [bind].
  match goal with |- context [foldM ?F _ _] => destruct (fold_returns (fun b => bok (vok := tupok) b) F (sel cK)) with (b := mkSB (@emptyTree tuple)) as (rb & Erb & _) end.
  - intros b k Hk Hbk. pose proof (sok_allok cK HcK k Hk) as Hok.
    rewrite (m_get_ok (kok := tupok)) by auto. cbn [bind]. specialize (HSG k Hok). specialize (HTG k Hok).
    assert (Hm : lookup (sel cK) k <> None).
    { rewrite (proj2 (lookup_iff (vok := tupok) (sel cK) k k (sok_distinct cK HcK) (sok_allok cK HcK) Hok)); [discriminate|].
      split; auto. apply (veq_refl (vok := tupok)); auto. }
    specialize (HCK k Hok). rewrite HSK, HTK in HCK by auto. unfold mget in *.
    destruct (klk (mel sG) k) as [ea|]; [|exfalso; apply Hm; exact HCK]. cbn [option_map] in *.
    rewrite (m_get_ok (kok := tupok)) by auto. cbn [bind]. unfold mget.
    destruct (klk (mel tG) k) as [eb|]; [|exfalso; apply Hm; exact HCK]. cbn [option_map] in *.
    apply r_build_returns; auto using tupok_empty. intros q [<-|[<-|[]]]; [apply HSG|apply HTG].
  - apply (bok_empty (vok := tupok)).
  - rewrite Erb. cbn [bind]. eauto.
Qed.

Lemma r_join_returns ps : fewCollisions -> ps <> [] -> (forall p, In p ps -> relok (fst p) /\ header (fst p) (snd p)) ->
  (forall p, In p (tl ps) -> sel (fst p) <> []) -> exists r, r_join (map fst ps) = Ok r.
Proof.
  intros Hf Hn Hok Hne. destruct ps as [|[s hs] ps]; [congruence|]. cbn [map r_join fst tl] in *.
  destruct (Hok (s, hs) (or_introl eq_refl)) as [Hs Hhs]. cbn [fst snd] in *. clear Hn.
  revert s hs Hs Hhs Hok. induction ps as [|[t ht] ps IH]; intros s hs Hs Hhs Hok; cbn [map foldM fst]; eauto.
  destruct (Hok (t, ht) (or_intror (or_introl eq_refl))) as [Ht Hht]. cbn [fst snd] in *.
  destruct (r_join2_returns s t Hf Hs Ht) as (r & E1). rewrite E1. cbn [bind].
  destruct (r_join2_ok s t hs ht r Hs Ht Hhs Hht) as (Hr & Hhr & _); auto.
  { right. apply (Hne (t, ht)). left; auto. }
  apply (IH (fun p Hp => Hne p (or_intror Hp)) r (hs ++ ht)); auto.
  intros p [<-|Hp]; auto. apply Hok. right; right; auto.
Qed.

(** ** Nest *)

Definition wo (t : tuple) (attrs : list X) : tuple := orElse t (foldM m_without t attrs).

Lemma wo_ok t attrs : tupok t -> (forall k, In k attrs -> kok k) ->
  foldM m_without t attrs = Ok (wo t attrs) /\ tupok (wo t attrs) /\
  forall j, kok j -> mget (wo t attrs) j = if hasAttr attrs j then None else mget t j.
Proof.
  intros Ht Ha. destruct (t_withoutAll_ok attrs t Ht Ha) as (r & Er & Hr & HR). unfold wo. rewrite Er. auto.
Qed.

(** Every element of Values is a value of the map. *)
Lemma m_values_in {X' V' : Type} {KX' : Key X'} {kok' : X' -> Prop} {KO' : KeyOk KX' kok'} {ZV' : Zero V'}
  {KV' : Key V'} {valok'} {KVO' : KeyOk KV' valok'} (m : gomap X' V') r : mok kok' m -> vals_ok valok' m ->
  m_values m = Ok r -> forall v, In v (sel r) -> exists e, In e (mel m) /\ e_val e = v.
Proof.
  intros Hm Hv E1 v Hi. unfold m_values in E1. rewrite (m_entries_ok (kok := kok')) in E1 by auto. cbn [bind] in E1.
  destruct (sb_addMap_ok (vok := valok') (fun kv : X' * V' => snd kv) (map pair_of (mel m)) (mkSB emptyTree)) as (b & E2 & Hb & HL).
  { apply bok_empty. }
  { intros kv Hkv. apply in_map_iff in Hkv as (e & <- & He). apply Hv; auto. }
  rewrite E2 in E1. cbn [bind] in E1. injection E1 as <-. change (In v (bel b)) in Hi.
  assert (Ho : allok valok' (bel b)) by (apply (tok_allok (vok := valok')); auto).
  assert (Hd : distinct (bel b)) by (apply (tok_distinct (vok := valok')); auto).
  pose proof (proj1 (In_lookup (vok := valok') (bel b) v Hd Ho (Ho v Hi)) Hi) as Hl. rewrite HL in Hl by (apply Ho; auto).
  destruct (findLast _ v) as [w|] eqn:Ef.
  - injection Hl as ->. apply findLast_Some in Ef as [Hw _]. rewrite map_map in Hw. apply in_map_iff in Hw as (e & He & Hie). eauto.
  - cbn in Hl. discriminate.
Qed.

(** A MapMap that returns. *)
Lemma m_mapM_ok {X' V' U : Type} {KX' : Key X'} {kok' : X' -> Prop} {KO' : KeyOk KX' kok'} {ZV' : Zero V'} {ZU : Zero U}
  (m : gomap X' V') (f : X' -> V' -> res U) r : mok kok' m -> m_mapM m f = Ok r ->
  mok kok' r /\ (forall e, In e (mel m) -> exists u, f (e_key e) (e_val e) = Ok u /\ In (mkEntry (e_key e) u) (mel r)) /\
  (forall e', In e' (mel r) -> exists e, In e (mel m) /\ e_key e' = e_key e /\ f (e_key e) (e_val e) = Ok (e_val e')).
Proof.
  intros Hm E1.
  assert (HA : forall e, In e (mel m) -> exists u, f (e_key e) (e_val e) = Ok u).
  { unfold m_mapM in E1. rewrite (m_entries_ok (kok := kok')) in E1 by auto. cbn [bind] in E1.
    destruct (foldM _ _ _) as [b| |] eqn:Ef; try discriminate. clear E1 Hm. revert Ef. generalize (mkMB (@emptyTree (entry X' U))).
    induction (mel m) as [|e0 l IH]; intros b0 Ef e He; [destruct He|]. cbn [map foldM pair_of fst snd] in Ef.
    destruct (f (e_key e0) (e_val e0)) as [u| |] eqn:Eu; try discriminate. cbn [bind] in Ef.
    destruct He as [<-|He]; [eauto|]. destruct (mb_put b0 (e_key e0) u) as [b1| |]; try discriminate. cbn [bind] in Ef. eapply IH; eauto. }
  set (g := fun k v => orElse zero (f k v)).
  assert (HG : forall e, In e (mel m) -> f (e_key e) (e_val e) = Ok (g (e_key e) (e_val e))).
  { intros e He. destruct (HA e He) as (u & Eu). unfold g. rewrite Eu. auto. }
  rewrite (m_mapM_pure kok' m f g) in E1 by auto.
  destruct (m_map_ok (kok := kok') m g Hm) as (r' & E2 & Hr & HR). rewrite E2 in E1. injection E1 as ->. split; auto. split.
  - intros e He. exists (g (e_key e) (e_val e)). split; auto. pose proof (mok_allok m Hm e He) as Hoe.
    assert (Hk : klk (mel m) (e_key e) = Some e) by (apply (klk_iff (kok := kok')); auto; split; auto; apply (veq_refl (vok := kok')); auto).
    pose proof (HR (e_key e) Hoe) as Hk'. rewrite Hk in Hk'. cbn in Hk'. apply klk_Some in Hk' as [Hin _]. exact Hin.
  - intros e' He'. pose proof (mok_allok r Hr e' He') as Hoe.
    assert (Hk : klk (mel r) (e_key e') = Some e') by (apply (klk_iff (kok := kok')); auto; split; auto; apply (veq_refl (vok := kok')); auto).
    rewrite HR in Hk by auto. destruct (klk (mel m) (e_key e')) as [e|] eqn:Ek; [|discriminate]. cbn in Hk. injection Hk as <-.
    apply klk_Some in Ek as [Hin _]. exists e. cbn. auto.
Qed.

Lemma mel_mget {X' V' : Type} {KX' : Key X'} {kok' : X' -> Prop} {KO' : KeyOk KX' kok'} (m : gomap X' V') e k : mok kok' m ->
  In e (mel m) -> kok' k -> veq (e_key e) k = true -> mget m k = Some (e_val e).
Proof.
  intros Hm He Hk Hq. unfold mget. rewrite (proj2 (klk_iff m k e Hm Hk)); auto.
Qed.

(** How relations are stored as values: a stored relation is read back, it is valid if the relation is, and
    stored relations are equal if they have the same tuples ([value.Equal] calls Set.Equal). *)
Context {RV : RelVal X V}.
Class RelValOk : Prop := {
  from_to : forall r : relation, fromAny (toAny r) = Some r;
  to_from : forall v r, fromAny v = Some r -> v = toAny r;
  toAny_ok : forall r, relok r <-> valok (toAny r);
  toAny_eq : forall r s, relok r -> relok s -> veq (toAny r) (toAny s) = true <-> seqv tupok r s;
}.
Context {RVO : RelValOk}.
Notation setok := (sok kok).
#[local] Instance attrsKeyOk : KeyOk (@setKey E X KX) setok := setKeyOk (HE := HE).

(** The attribute occurs in every set of [AA]. *)
Definition inAll (AA : gomap X (set X)) (j : X) : Prop :=
  forall k A, kok k -> mget AA k = Some A -> lookup (sel A) j <> None.

(** [p] is the projection to [A] of the tuples of [s] with the same key as [t]. *)
Definition nestedOf (s : relation) (ka : list X) (t : tuple) (A : set X) (p : relation) : Prop :=
  relok p /\ forall y, tupok y -> smem p y <->
    exists t', In t' (sel s) /\ @veq _ mapKey (wo t' ka) (wo t ka) = true /\
      meets y (fun j => if hasAttr (sel A) j then mget t' j else None).

(** [u] is the tuple of Nest for the group of [t]. *)
Definition isNest (s : relation) (ka : list X) (AA : gomap X (set X)) (t u : tuple) : Prop :=
  tupok u /\ forall j, kok j ->
    match mget (wo t ka) j with
    | Some v => opteq (mget u j) (Some v)
    | None =>
        match mget AA j with
        | Some A => exists p, mget u j = Some (toAny p) /\ nestedOf s ka t A p
        | None => mget u j = None
        end
    end.

Lemma smem_eqv (s : relation) x y : relok s -> tupok x -> tupok y -> @veq _ mapKey x y = true -> smem s x <-> smem s y.
Proof.
  intros Hs Hx Hy Hq. unfold smem. rewrite (lookup_veq (vok := tupok) (sel s) x y); auto; [tauto|].
  apply (sok_allok (vok := tupok)); auto.
Qed.

Lemma isNest_unique s ka AA t u u' : isNest s ka AA t u -> isNest s ka AA t u' -> tupok (wo t ka) -> @veq _ mapKey u u' = true.
Proof.
  intros [Hu H1] [Hu' H2] Hw. apply teq_meets; auto. intros j Hj. specialize (H1 j Hj). specialize (H2 j Hj).
  destruct (mget (wo t ka) j) as [v|] eqn:Ew.
  - assert (valok v) by (apply (mget_valok (wo t ka) j); auto).
    apply (opteq_trans (mget u j) (Some v) (mget u' j)); try mvals; auto; [congruence|].
    apply opteq_sym; try mvals; auto. congruence.
  - destruct (mget AA j) as [A|].
    + destruct H1 as (p & -> & Hp & HP). destruct H2 as (p' & -> & Hp' & HP'). cbn. apply toAny_eq; auto.
      intros y Hy. fold (smem p y) (smem p' y). rewrite HP, HP' by auto. tauto.
    + rewrite H1, H2. exact Logic.I.
Qed.

Lemma nest_keyAttrs AA : mok kok AA -> vals_ok setok AA ->
  (mel AA = [] /\ (vals <- m_values AA ;; sets <- s_elements vals ;; inter <- s_intersectionN sets ;; s_elements inter) = Panic) \/
  (mel AA <> [] /\ exists ka, (vals <- m_values AA ;; sets <- s_elements vals ;; inter <- s_intersectionN sets ;; s_elements inter) = Ok ka /\
    (forall k, In k ka -> kok k) /\ forall j, kok j -> hasAttr ka j = true <-> inAll AA j).
Proof.
  intros HA Hv. destruct (m_values_ok (kok := kok) (valok := setok) AA HA Hv) as (vals & E1 & Hvals & HV).
  pose proof (m_values_in (kok' := kok) (valok' := setok) AA vals HA Hv E1) as Hin.
  rewrite E1. cbn [bind]. rewrite (s_elements_ok (vok := setok)) by auto. cbn [bind].
  destruct (sel vals) as [|A0 l] eqn:El.
  - left. split; [|reflexivity]. destruct (mel AA) as [|e l] eqn:Em; auto. exfalso.
    assert (Hn : lookup (@nil (set X)) (e_val e) <> None).
    { apply HV; [apply Hv; rewrite Em; left; auto|]. exists e. split; [left; auto|]. apply (veq_refl (vok := setok)). apply Hv. rewrite Em; left; auto. }
    apply Hn. reflexivity.
  - right. split.
    { destruct (Hin A0) as (e & He & _); [left; auto|]. intros Hn. rewrite Hn in He. destruct He. }
    pose proof (sok_allok (vok := setok) vals Hvals) as Ho. rewrite El in Ho.
    destruct (s_intersectionN_ok (vok := kok) (A0 :: l) A0) as (inter & E2 & Hi & HI); [apply Ho; left; auto|exact Ho|].
    cbn [s_intersectionN]. rewrite E2. cbn [bind]. exists (sel inter). split; [apply (s_elements_ok (vok := kok)); auto|].
    split; [apply (sok_allok (vok := kok)); auto|]. intros j Hj. rewrite hasAttr_lookup.
    assert (HB : isSome (lookup (sel inter) j) = true <-> lookup (sel inter) j <> None).
    { destruct (lookup (sel inter) j); cbn; split; congruence. }
    rewrite HB, HI by auto. clear HB. split.
    + intros [_ H] k A Hk HkA.
      assert (HAv : exists e, In e (mel AA) /\ e_val e = A).
      { unfold mget in HkA. destruct (klk (mel AA) k) as [e|] eqn:Ek; [|discriminate]. injection HkA as <-. apply klk_Some in Ek as [He _]. eauto. }
      destruct HAv as (e & He & <-).
      assert (Hn : lookup (A0 :: l) (e_val e) <> None).
      { apply HV; [apply Hv; auto|]. exists e. split; auto. apply (veq_refl (vok := setok)). apply Hv; auto. }
      destruct (lookup (A0 :: l) (e_val e)) as [B|] eqn:EB; [|congruence]. apply lookup_Some in EB as [HBi HBq].
      assert (HB : setok B) by (apply Ho; auto). assert (HeA : setok (e_val e)) by (apply Hv; auto).
      destruct (s_equal_ok (vok := kok) B (e_val e) HB HeA) as (b & Eb & HQ). cbn in HBq. rewrite Eb in HBq. subst b.
      apply (proj1 HQ eq_refl j Hj). apply H; auto.
    + intros H. assert (HH : forall B, In B (A0 :: l) -> lookup (sel B) j <> None).
      { intros B HB. destruct (Hin B HB) as (e & He & <-). apply (H (e_key e)); [apply (mok_allok AA HA); auto|].
        apply (mel_mget AA e (e_key e) HA He); [apply (mok_allok AA HA); auto|]. apply (veq_refl (vok := kok)). apply (mok_allok AA HA); auto. }
      split; auto. apply HH. left; auto.
Qed.

(** The part of [Nest] after keyAttrs. *)
Definition nest_rest (s : relation) (AA : gomap X (set X)) (keyAttrs : list X) : res relation :=
  grouped <- s_groupByM s (fun el => foldM m_without el keyAttrs) ;;
  mapped <- m_mapM grouped (fun key group =>
    a <- m_mapM AA (fun _ attrs =>
           l <- s_elements attrs ;; p <- r_project group l ;; Ok (toAny p)) ;;
    m_update a key) ;;
  m_values mapped.

Lemma r_nest_split s AA : r_nest s AA =
  (ka <- (vals <- m_values AA ;; sets <- s_elements vals ;; inter <- s_intersectionN sets ;; s_elements inter) ;; nest_rest s AA ka).
Proof.
  unfold r_nest, nest_rest. destruct (m_values AA) as [v| |]; cbn [bind]; auto. destruct (s_elements v) as [l| |]; cbn [bind]; auto.
  destruct (s_intersectionN l) as [i| |]; cbn [bind]; auto.
Qed.

(** The nested attributes of one group. *)
Lemma nest_map_ok AA group : mok kok AA -> vals_ok setok AA -> relok group ->
  exists a, m_mapM AA (fun _ attrs => l <- s_elements attrs ;; p <- r_project group l ;; Ok (toAny p)) = Ok a /\ tupok a /\
    forall j, kok j -> match mget AA j with
      | Some A => exists p, mget a j = Some (toAny p) /\ r_project group (sel A) = Ok p /\ relok p
      | None => mget a j = None
      end.
Proof.
  intros HA Hv Hg.
  set (f := fun (_ : X) (attrs : set X) => l <- s_elements attrs ;; p <- r_project group l ;; Ok (toAny p)).
  assert (HF : forall k A, setok A -> exists p, f k A = Ok (toAny p) /\ r_project group (sel A) = Ok p /\ relok p).
  { intros k A HAo. unfold f. rewrite (s_elements_ok (vok := kok)) by auto. cbn [bind].
    destruct (r_project_ok group (sel A) Hg) as (p & Ep & Hp & _); [apply (sok_allok (vok := kok)); auto|]. exists p. rewrite Ep. auto. }
  set (g := fun k A => orElse zero (f k A)).
  assert (HG : forall e, In e (mel AA) -> f (e_key e) (e_val e) = Ok (g (e_key e) (e_val e))).
  { intros e He. destruct (HF (e_key e) (e_val e) (Hv e He)) as (p & Ep & _). unfold g. rewrite Ep. auto. }
  rewrite (m_mapM_pure kok AA f g) by auto.
  destruct (m_map_ok (kok := kok) AA g HA) as (a & Ea & Ha & HR). exists a. split; auto.
  assert (HM : forall j, kok j -> match mget AA j with
      | Some A => exists p, mget a j = Some (toAny p) /\ r_project group (sel A) = Ok p /\ relok p
      | None => mget a j = None
      end).
  { intros j Hj. unfold mget. rewrite HR by auto. destruct (klk (mel AA) j) as [e|] eqn:Ek; cbn [option_map e_val]; auto.
    apply klk_Some in Ek as [He _]. destruct (HF (e_key e) (e_val e) (Hv e He)) as (p & Ep & Hp). exists p.
    unfold g. rewrite Ep. cbn. auto. }
  split; auto. apply tupok_mk; auto. intros j v Hj Hjv. specialize (HM j Hj). destruct (mget AA j) as [A|]; [|congruence].
  destruct HM as (p & Hp & _ & Hpo). rewrite Hp in Hjv. injection Hjv as <-. apply toAny_ok; auto.
Qed.

Lemma nest_rest_ok s AA ka r : relok s -> mok kok AA -> vals_ok setok AA -> (forall k, In k ka -> kok k) ->
  nest_rest s AA ka = Ok r ->
  relok r /\ (forall x, In x (sel r) -> exists t, In t (sel s) /\ isNest s ka AA t x) /\
  (forall t, In t (sel s) -> exists u, isNest s ka AA t u) /\
  (forall y, tupok y -> smem r y <-> exists t u, In t (sel s) /\ isNest s ka AA t u /\ @veq _ mapKey u y = true).
Proof.
  intros Hs HA Hv Hka E1. unfold nest_rest in E1.
  destruct (group_ok s (fun el => foldM m_without el ka) (fun el => wo el ka) Hs) as (G & E2 & HG & HR).
  { intros t Ht. pose proof (wo_ok t ka (sok_allok s Hs t Ht) Hka). tauto. }
  rewrite E2 in E1. cbn [bind] in E1.
  destruct (m_mapM G _) as [mp| |] eqn:E3; try discriminate. cbn [bind] in E1.
  destruct (m_mapM_ok (kok' := tupok) G _ mp HG E3) as (Hmp & HM1 & HM2).
  (* the tuple computed for one group *)
  assert (HU : forall e u, In e (mel G) ->
     (a <- m_mapM AA (fun _ attrs => l <- s_elements attrs ;; p <- r_project (e_val e) l ;; Ok (toAny p)) ;; m_update a (e_key e)) = Ok u ->
     tupok u /\ forall t, In t (sel s) -> @veq _ mapKey (wo t ka) (e_key e) = true -> isNest s ka AA t u).
  { intros e u He Eu. pose proof (mok_allok G HG e He) as Hke. specialize (HR (e_key e) Hke).
    rewrite (mel_mget G e (e_key e) HG He Hke) in HR by (apply (veq_refl (vok := tupok)); auto). destruct HR as (Hg & _ & HP).
    destruct (nest_map_ok AA (e_val e) HA Hv Hg) as (a & Ea & Ha & HNa). rewrite Ea in Eu. cbn [bind] in Eu.
    destruct (t_update_ok a (e_key e) u Ha Hke Eu) as [Hu HUu]. split; auto. intros t Ht Hq. split; auto.
    destruct (wo_ok t ka (sok_allok s Hs t Ht) Hka) as (_ & Hwt & _).
    pose proof (proj1 (teq_meets (wo t ka) (e_key e) Hwt Hke) Hq) as HQ.
    intros j Hj. specialize (HQ j Hj). rewrite HUu by auto. unfold over.
    destruct (mget (wo t ka) j) as [v|] eqn:Ewj.
    - destruct (mget (e_key e) j) as [w|] eqn:Ekj; [|destruct HQ]. apply (opteq_sym (Some v) (Some w)); auto.
      + intros ? [= <-]. apply (mget_valok (wo t ka) j); auto.
      + intros ? [= <-]. apply (mget_valok (e_key e) j); auto.
    - destruct (mget (e_key e) j) as [w|]; [destruct HQ|]. specialize (HNa j Hj). destruct (mget AA j) as [A|] eqn:EA; auto.
      destruct HNa as (p & Hp1 & Hp2 & Hp3). exists p. split; auto. split; auto.
      assert (HsA : setok A).
      { unfold mget in EA. destruct (klk (mel AA) j) as [ea|] eqn:Ek; [|discriminate]. injection EA as <-.
        apply klk_Some in Ek as [Hea _]. apply Hv; auto. }
      destruct (r_project_ok (e_val e) (sel A) Hg) as (p' & Ep' & _ & HPr); [apply (sok_allok (vok := kok)); auto|].
      rewrite Hp2 in Ep'. injection Ep' as <-. intros y Hy. rewrite HPr by auto.
      split; intros (t' & Ht' & H'); exists t'.
      + apply HP in Ht' as [Ht' Hq']. split; auto. split; auto.
        destruct (wo_ok t' ka (sok_allok s Hs t' Ht') Hka) as (_ & Hwt' & _).
        apply (veq_trans (vok := tupok) (wo t' ka) (e_key e) (wo t ka)); auto. apply (veq_sym (vok := tupok)); auto.
      + destruct H' as [Hq' H']. split; auto. apply HP. split; auto.
        destruct (wo_ok t' ka (sok_allok s Hs t' Ht') Hka) as (_ & Hwt' & _).
        apply (veq_trans (vok := tupok) (wo t' ka) (wo t ka) (e_key e)); auto. }
  assert (Hvm : vals_ok tupok mp).
  { intros e He. destruct (HM2 e He) as (e0 & He0 & _ & Ef). apply (HU e0 (e_val e) He0 Ef). }
  destruct (m_values_ok (kok := tupok) (valok := tupok) mp Hmp Hvm) as (r' & E4 & Hr & HVr). rewrite E4 in E1. injection E1 as ->.
  (* every group has an element *)
  assert (HE1 : forall e, In e (mel G) -> exists t, In t (sel s) /\ @veq _ mapKey (wo t ka) (e_key e) = true).
  { intros e He. pose proof (mok_allok G HG e He) as Hke. specialize (HR (e_key e) Hke).
    rewrite (mel_mget G e (e_key e) HG He Hke) in HR by (apply (veq_refl (vok := tupok)); auto). destruct HR as (Hg & Hne & HP).
    destruct (sel (e_val e)) as [|t l] eqn:El; [congruence|]. exists t. apply HP. left; auto. }
  (* every element has a group *)
  assert (HGt : forall t, In t (sel s) -> exists e, In e (mel G) /\ @veq _ mapKey (wo t ka) (e_key e) = true).
  { intros t Ht. destruct (wo_ok t ka (sok_allok s Hs t Ht) Hka) as (_ & Hwt & _).
    specialize (HR (wo t ka) Hwt). unfold mget in HR. destruct (klk (mel G) (wo t ka)) as [e|] eqn:Ek.
    - apply klk_Some in Ek as [He Hke]. exists e. split; auto. apply (veq_sym (vok := tupok)); auto. apply (mok_allok G HG e He).
    - cbn [option_map] in HR. specialize (HR t Ht). rewrite (veq_refl (vok := tupok)) in HR by auto. discriminate. }
  split; auto. split; [|split].
  - intros x Hx. destruct (m_values_in (kok' := tupok) (valok' := tupok) mp r Hmp Hvm E4 x Hx) as (e & He & <-).
    destruct (HM2 e He) as (e0 & He0 & _ & Ef). destruct (HE1 e0 He0) as (t & Ht & Hq). exists t. split; auto. apply (HU e0 (e_val e) He0 Ef); auto.
  - intros t Ht. destruct (HGt t Ht) as (e & He & Hqe). destruct (HM1 e He) as (u' & Eu' & _).
    exists u'. apply (HU e u' He Eu'); auto.
  - intros y Hy. unfold smem. rewrite HVr by auto. split.
    + intros (e & He & Hq). destruct (HM2 e He) as (e0 & He0 & _ & Ef). destruct (HE1 e0 He0) as (t & Ht & Hqt).
      exists t, (e_val e). split; auto. split; auto. apply (HU e0 (e_val e) He0 Ef); auto.
    + intros (t & u & Ht & HN & Hq). destruct (wo_ok t ka (sok_allok s Hs t Ht) Hka) as (_ & Hwt & _).
      destruct (HGt t Ht) as (e & He & Hqe). destruct (HM1 e He) as (u' & Eu' & Hin). exists (mkEntry (e_key e) u'). split; auto. cbn [e_val].
      destruct (HU e u' He Eu') as [Hu' HN']. apply (veq_trans (vok := tupok) u' u y); auto; [apply HN|].
      apply (isNest_unique s ka AA t); auto.
Qed.

Lemma r_nest_ok s AA r : relok s -> mok kok AA -> vals_ok setok AA -> r_nest s AA = Ok r ->
  exists ka, (forall k, In k ka -> kok k) /\ (forall j, kok j -> hasAttr ka j = true <-> inAll AA j) /\
  relok r /\ (forall x, In x (sel r) -> exists t, In t (sel s) /\ isNest s ka AA t x) /\
  (forall t, In t (sel s) -> exists u, isNest s ka AA t u) /\
  (forall y, tupok y -> smem r y <-> exists t u, In t (sel s) /\ isNest s ka AA t u /\ @veq _ mapKey u y = true).
Proof.
  intros Hs HA Hv E1. rewrite r_nest_split in E1. destruct (nest_keyAttrs AA HA Hv) as [[_ H]|(_ & ka & H & Hka & HK)].
  - rewrite H in E1. discriminate.
  - rewrite H in E1. cbn [bind] in E1. exists ka. split; auto. split; auto. apply nest_rest_ok; auto.
Qed.

Lemma r_nest_empty s AA : mok kok AA -> vals_ok setok AA -> mel AA = [] -> r_nest s AA = Panic.
Proof.
  intros HA Hv Hn. rewrite r_nest_split. destruct (nest_keyAttrs AA HA Hv) as [[_ H]|[H _]]; [|congruence]. rewrite H. reflexivity.
Qed.

(** A MapMap whose callback returns. *)
Lemma m_mapM_returns {X' V' U : Type} {KX' : Key X'} {kok' : X' -> Prop} {KO' : KeyOk KX' kok'} {ZV' : Zero V'} {ZU : Zero U}
  (m : gomap X' V') (f : X' -> V' -> res U) : mok kok' m -> (forall e, In e (mel m) -> exists u, f (e_key e) (e_val e) = Ok u) ->
  exists r, m_mapM m f = Ok r.
Proof.
  intros Hm H. rewrite (m_mapM_pure kok' m f (fun k v => orElse zero (f k v))); auto.
  - destruct (m_map_ok (kok := kok') m (fun k v => orElse zero (f k v)) Hm) as (r & E1 & _). eauto.
  - intros e He. destruct (H e He) as (u & Eu). rewrite Eu. auto.
Qed.

Lemma r_nest_returns s AA : fewCollisions -> relok s -> mok kok AA -> vals_ok setok AA -> mel AA <> [] -> exists r, r_nest s AA = Ok r.
Proof.
  intros Hf Hs HA Hv Hn. rewrite r_nest_split. destruct (nest_keyAttrs AA HA Hv) as [[H _]|(_ & ka & H & Hka & _)]; [congruence|].
  rewrite H. cbn [bind]. unfold nest_rest.
  destruct (group_ok s (fun el => foldM m_without el ka) (fun el => wo el ka) Hs) as (G & E2 & HG & HR).
  { intros t Ht. pose proof (wo_ok t ka (sok_allok s Hs t Ht) Hka). tauto. }
  rewrite E2. cbn [bind].
  match goal with |- context [m_mapM G ?F] => set (f := F) end.
  assert (HU : forall e, In e (mel G) -> exists u, f (e_key e) (e_val e) = Ok u /\ tupok u).
  { intros e He. pose proof (mok_allok G HG e He) as Hke. specialize (HR (e_key e) Hke).
    rewrite (mel_mget G e (e_key e) HG He Hke) in HR by (apply (veq_refl (vok := tupok)); auto). destruct HR as (Hg & _ & HP).
    destruct (nest_map_ok AA (e_val e) HA Hv Hg) as (a & Ea & Ha & _). unfold f. rewrite Ea. cbn [bind].
    destruct (t_update_returns a (e_key e) Hf Ha Hke) as (u & Eu). exists u. split; auto. eapply t_update_ok; [exact Ha|exact Hke|exact Eu]. }
  destruct (m_mapM_returns (kok' := tupok) G f HG) as (mp & E3).
  { intros e He. destruct (HU e He) as (u & Eu & _). eauto. }
  rewrite E3. cbn [bind]. destruct (m_mapM_ok (kok' := tupok) G f mp HG E3) as (Hmp & _ & HM2).
  destruct (m_values_ok (kok := tupok) (valok := tupok) mp Hmp) as (r & E4 & _); eauto.
  intros e He. destruct (HM2 e He) as (e0 & He0 & _ & Ef). destruct (HU e0 He0) as (u & Eu & Hu). rewrite Eu in Ef. injection Ef as <-. auto.
Qed.

(** ** Unnest *)
#[local] Instance relationKeyOk : KeyOk (@setKey E tuple mapKey) relok := setKeyOk (K := mapKey) (HE := HE).

Lemma two_list {A} (a b : A) l : NoDup l -> (forall z, In z l -> z = a \/ z = b) -> In a l -> In b l -> a <> b -> l = [a; b] \/ l = [b; a].
Proof.
  intros HN H Ha Hb Hab. destruct l as [|x [|y [|z l]]]; [destruct Ha|..].
  - destruct Ha as [->|[]], Hb as [->|[]]. congruence.
  - destruct (H x) as [->| ->]; [left; auto|..]; destruct (H y) as [->| ->]; try (right; left; auto; fail); auto.
    + destruct Hb as [->|[->|[]]]; congruence.
    + destruct Ha as [->|[->|[]]]; congruence.
  - exfalso. inversion HN as [|? ? N1 HN1]; subst. inversion HN1 as [|? ? N2 HN2]; subst.
    pose proof (H x (or_introl eq_refl)) as Hx. pose proof (H y (or_intror (or_introl eq_refl))) as Hy.
    pose proof (H z (or_intror (or_intror (or_introl eq_refl)))) as Hz. cbn in N1, N2. intuition congruence.
Qed.

Lemma one_list {A} (a : A) l : NoDup l -> (forall z, In z l -> z = a) -> In a l -> l = [a].
Proof.
  intros HN H Ha. destruct l as [|x [|y l]]; [destruct Ha|..].
  - rewrite (H x); [auto|left; auto].
  - exfalso. inversion HN as [|? ? N1 HN1]; subst. apply N1. rewrite (H x), (H y); cbn; auto.
Qed.

Lemma without_wo t a : tupok t -> kok a -> m_without t a = Ok (wo t [a]).
Proof.
  intros Ht Ha. destruct (wo_ok t [a] Ht) as [H _]; [intros k [<-|[]]; auto|]. cbn [foldM] in H.
  destruct (m_without t a); cbn [bind] in H; auto; discriminate.
Qed.

Lemma singleton_ok t : tupok t -> exists r, s_new [t] = Ok r /\ relok r /\ sel r = [t].
Proof.
  intros Ht. destruct (s_new_ok (vok := tupok) [t]) as (r & E1 & Hr & HR); [intros x [<-|[]]; auto|]. exists r. split; auto. split; auto.
  apply one_list.
  - apply (distinct_NoDup (vok := tupok)); [apply (sok_allok (vok := tupok))|apply (sok_distinct (vok := tupok))]; auto.
  - intros z Hz. pose proof (sok_allok r Hr z Hz) as Hoz.
    pose proof (proj1 (In_lookup (vok := tupok) (sel r) z (sok_distinct r Hr) (sok_allok r Hr) Hoz) Hz) as Hl. rewrite HR in Hl by auto.
    apply findLast_Some in Hl as [[<-|[]] _]. auto.
  - assert (Hl : lookup (sel r) t = Some t).
    { rewrite HR by auto. destruct (findLast [t] t) as [e|] eqn:Ef.
      - apply findLast_Some in Ef as [[<-|[]] _]. auto.
      - pose proof (proj1 (findLast_None _ _) Ef t (or_introl eq_refl)) as Hq. rewrite (veq_refl (vok := tupok)) in Hq by auto. discriminate. }
    apply lookup_Some in Hl. tauto.
Qed.

(** With puts the new element last. *)
Lemma with_one {U} {KU : Key U} {vok' : U -> Prop} (t : set U) q v r : sok vok' t -> sel t = [q] -> veq q v = false -> s_with t v = Ok r -> sel r = [q; v].
Proof.
  intros [Ht _] Hq Hv E1. unfold sel in *. unfold s_with, t_with in E1. destruct t as [[ro c]]. cbn [s_tree t_root t_count] in *.
  unfold tel in *. cbn [t_root] in *. destruct ro as [n|]; [|discriminate]. cbn [elemso] in *.
  specialize (Ht n eq_refl). assert (HL : length (elems n) = 1) by (rewrite Hq; auto).
  inversion Ht; subst n; cbn in Hq; try discriminate.
  - injection Hq as ->. replace treeFuel with (S (2 * maxTreeDepth + 3)) in E1 by (unfold treeFuel; lia).
    cbn [withFast] in E1. rewrite Hv in E1. cbn in E1. injection E1 as <-. reflexivity.
  - exfalso. lia.
Qed.

(** [y] is one of the tuples that Unnest makes of [x]. *)
Definition unnests (a : X) (x y : tuple) : Prop :=
  match mget x a with
  | None => meets y (mget x)
  | Some v => exists p b, v = toAny p /\ In b (sel p) /\ compatible (wo x [a]) b /\ meets y (over (mget (wo x [a])) b)
  end.

(** The attribute, if present, holds a relation whose tuples all have the same attributes in common
    with the rest of [x]. *)
Definition nestable (a : X) (x : tuple) : Prop :=
  forall v, mget x a = Some v -> exists p, v = toAny p /\
    forall b b' j, In b (sel p) -> In b' (sel p) -> kok j ->
      (isSome (mget (wo x [a]) j) && isSome (mget b j) = isSome (mget (wo x [a]) j) && isSome (mget b' j))%bool.

Definition unnest_step (a : X) (t : tuple) : res relation :=
  key <- m_without t a ;;
  p <- m_project t [a] ;;
  nested <- m_mapM p (fun _ val => match fromAny val with Some r => Ok r | None => Panic end) ;;
  nestedValues <- m_values nested ;;
  ks <- s_new [key] ;;
  all <- s_with nestedValues ks ;;
  l <- s_elements all ;;
  r_join l.

Lemma unnest_step_ok a t : tupok t -> kok a -> nestable a t ->
  (exists l, unnest_step a t = r_join l /\ l <> [] /\
     (forall r, In r l -> relok r) /\ length l <= 2 /\
     forall r, r_join l = Ok r -> relok r /\ forall y, tupok y -> smem r y <-> unnests a t y).
Proof.
  intros Ht Ha HN. unfold unnest_step. rewrite (without_wo t a Ht Ha). cbn [bind].
  assert (Hka : forall k, In k [a] -> kok k) by (intros k [<-|[]]; auto).
  destruct (wo_ok t [a] Ht Hka) as (_ & Hw & HW). set (xo := wo t [a]) in *.
  destruct (t_project_ok t [a] Ht Hka) as (p & Ep & Hp & HP). rewrite Ep. cbn [bind].
  assert (HPe : forall e, In e (mel p) -> mget t a = Some (e_val e) /\ veq (e_key e) a = true).
  { intros e He. pose proof (mok_allok p (proj1 Hp) e He) as Hke.
    assert (Hg : mget p (e_key e) = Some (e_val e)) by (apply (mel_mget (kok' := kok)); auto; [apply Hp|apply (veq_refl (vok := kok)); auto]).
    rewrite HP in Hg by auto. destruct (hasAttr [a] (e_key e)) eqn:Eh; [|discriminate]. cbn in Eh. rewrite orb_false_r in Eh.
    rewrite (mget_veq t a (e_key e)); auto. split; auto. apply (veq_sym (vok := kok)); auto. }
  destruct (singleton_ok xo Hw) as (ks & Eks & Hks & HKS).
  assert (HKn : sel ks <> []) by (rewrite HKS; discriminate).
  assert (HMP : exists m, m_mapM p (fun _ val => match fromAny val with Some r => Ok r | None => Panic end) = Ok m).
  { apply (m_mapM_returns (kok' := kok)); [apply Hp|]. intros e He. destruct (HPe e He) as [H _]. destruct (HN _ H) as (q & Hq & _).
    rewrite Hq, from_to. eauto. }
  destruct HMP as (m & Em). rewrite Em. cbn [bind].
  destruct (m_mapM_ok (kok' := kok) p _ m (proj1 Hp) Em) as (Hm & HM1 & HM2).
  assert (Hvm : vals_ok relok m).
  { intros e He. destruct (HM2 e He) as (e0 & He0 & _ & Ef). destruct (fromAny (e_val e0)) as [q|] eqn:Eq; [|discriminate]. injection Ef as <-.
    apply to_from in Eq. apply toAny_ok. rewrite <- Eq. apply (proj2 Hp); auto. }
  destruct (m_values_ok (kok := kok) (valok := relok) m Hm Hvm) as (nv & Env & Hnv & HNV). rewrite Env. cbn [bind].
  rewrite Eks. cbn [bind]. destruct (s_with_ok (vok := relok) nv ks Hnv Hks) as (all & Eall & Hall & HAL & _). rewrite Eall. cbn [bind].
  rewrite (s_elements_ok (vok := relok)) by auto. cbn [bind]. exists (sel all). split; auto.
  assert (Hnd : NoDup (sel all)) by (apply (distinct_NoDup (vok := relok)); [apply (sok_allok (vok := relok))|apply (sok_distinct (vok := relok))]; auto).
  assert (Hin_ks : In ks (sel all)).
  { assert (Hl : lookup (sel all) ks = Some ks) by (rewrite HAL, (veq_refl (vok := relok)) by auto; auto). apply lookup_Some in Hl. tauto. }
  assert (Hin_all : forall z, In z (sel all) -> z = ks \/ In z (sel nv) /\ veq ks z = false).
  { intros z Hz. pose proof (sok_allok (vok := relok) all Hall z Hz) as Hoz.
    pose proof (proj1 (In_lookup (vok := relok) (sel all) z (sok_distinct (vok := relok) all Hall) (sok_allok (vok := relok) all Hall) Hoz) Hz) as Hl.
    rewrite HAL in Hl by auto. destruct (veq ks z) eqn:Eq; [left; congruence|]. apply lookup_Some in Hl. tauto. }
  destruct (mget t a) as [v|] eqn:Eta.
  - (* a nested relation *)
    destruct (HN v Eta) as (q & Hq & Hreg).
    assert (Hqo : relok q) by (apply toAny_ok; rewrite <- Hq; apply (mget_valok t a); auto).
    assert (HNVl : forall z, In z (sel nv) -> z = q).
    { intros z Hz. destruct (m_values_in (kok' := kok) (valok' := relok) m nv Hm Hvm Env z Hz) as (e & He & <-).
      destruct (HM2 e He) as (e0 & He0 & _ & Ef). destruct (HPe e0 He0) as [H _]. injection H as H. rewrite <- H, Hq, from_to in Ef. congruence. }
    assert (HNVq : In q (sel nv)).
    { assert (Hpe : exists e, In e (mel p)).
      { assert (Hg : mget p a = Some v) by (rewrite HP by auto; cbn; rewrite (veq_refl (vok := kok)) by auto; auto).
        unfold mget in Hg. destruct (klk (mel p) a) as [e|] eqn:Ek; [|discriminate]. apply klk_Some in Ek as [He _]. eauto. }
      destruct Hpe as (e & He). destruct (HM1 e He) as (u & Eu & Hu). destruct (HPe e He) as [H _]. injection H as H. rewrite <- H, Hq, from_to in Eu.
      injection Eu as <-.
      assert (Hn : lookup (sel nv) q <> None) by (apply HNV; auto; exists (mkEntry (e_key e) q); split; auto; apply (veq_refl (vok := relok)); auto).
      destruct (lookup (sel nv) q) as [z|] eqn:Ez; [|congruence]. apply lookup_Some in Ez as [Hz _]. rewrite <- (HNVl z Hz). auto. }
    assert (HRG : regular ks q).
    { intros b b' c c' j Hb Hb' Hc Hc' Hj. rewrite HKS in Hb, Hb'. destruct Hb as [<-|[]], Hb' as [<-|[]]. apply Hreg; auto. }
    assert (HRG' : regular q ks).
    { intros b b' c c' j Hb Hb' Hc Hc' Hj. rewrite (andb_comm (isSome (mget b j))), (andb_comm (isSome (mget b' j))). apply HRG; auto. }
    assert (HU : forall y, tupok y -> unnests a t y <-> exists x b, In x (sel ks) /\ In b (sel q) /\ compatible x b /\ meets y (over (mget x) b)).
    { intros y Hy. unfold unnests. rewrite Eta. fold xo. split.
      - intros (q' & b & Hq' & Hb & HC & HM). exists xo, b. rewrite HKS. split; [left; auto|].
        assert (q' = q) by (pose proof (from_to q') as F1; rewrite <- Hq', Hq, from_to in F1; congruence). subst q'. auto.
      - intros (x & b & Hx & Hb & HC & HM). rewrite HKS in Hx. destruct Hx as [<-|[]]. exists q, b. auto. }
    destruct (veq ks q) eqn:Eqq.
    + (* the nested relation equals the relation of the rest *)
      assert (Hone : sel all = [ks]).
      { apply one_list; auto. intros z Hz. destruct (Hin_all z Hz) as [H|[H1 H2]]; auto. rewrite (HNVl z H1), Eqq in H2. discriminate. }
      rewrite Hone. split; [discriminate|]. split; [intros r [<-|[]]; auto|]. split; [cbn; lia|].
      intros r Er. cbn in Er. injection Er as <-. split; auto. intros y Hy. rewrite HU by auto. rewrite smem_meets by auto. rewrite HKS.
      destruct (s_equal_ok (vok := tupok) ks q Hks Hqo) as (eb & Eeb & HQ). cbn in Eqq. rewrite Eeb in Eqq. subst eb. pose proof (proj1 HQ eq_refl) as HSQ.
      assert (HB : forall b, In b (sel q) -> meets b (mget xo)).
      { intros b Hb. assert (Hob : tupok b) by (apply (sok_allok q Hqo); auto).
        assert (Hmb : smem ks b) by (apply (HSQ b Hob); apply smem_iff; exists b; split; auto; apply (veq_refl (vok := tupok)); auto).
        apply smem_meets in Hmb as (z & Hz & HM); auto. rewrite HKS in Hz. destruct Hz as [<-|[]]. auto. }
      split.
      * intros (z & [<-|[]] & HM). destruct (sel q) as [|b lq] eqn:Elq.
        { exfalso. assert (Hq0 : smem q xo) by (apply (HSQ xo Hw); apply smem_iff; exists xo; rewrite HKS; split; [left; auto|apply (veq_refl (vok := tupok)); auto]).
          unfold smem in Hq0. rewrite Elq in Hq0. apply Hq0. reflexivity. }
        exists xo, b. split; [left; auto|]. split; [left; auto|].
        assert (Hob : tupok b) by (apply (sok_allok q Hqo); rewrite Elq; left; auto).
        pose proof (HB b (or_introl eq_refl)) as HBb. split.
        -- intros j Hj _ _. apply opteq_sym; try mvals. auto.
        -- intros j Hj. unfold over. specialize (HM j Hj). specialize (HBb j Hj). destruct (mget b j) as [w|] eqn:Ew.
           ++ rewrite <- Ew in *. apply (opteq_trans (mget y j) (mget xo j) (mget b j)); try mvals; auto. apply opteq_sym; try mvals. auto.
           ++ destruct (mget xo j); [destruct HBb|auto].
      * intros (x & b & [<-|[]] & Hb & HC & HM). exists xo. split; [left; auto|]. assert (Hob : tupok b) by (apply (sok_allok q Hqo); auto).
        pose proof (HB b Hb) as HBb. intros j Hj. specialize (HM j Hj). specialize (HBb j Hj). unfold over in HM.
        destruct (mget b j) as [w|] eqn:Ew; auto. rewrite <- Ew in *. apply (opteq_trans (mget y j) (mget b j) (mget xo j)); try mvals; auto.
    + assert (Hin_q : In q (sel all)).
      { assert (Hl : lookup (sel all) q = lookup (sel nv) q) by (rewrite HAL, Eqq by auto; auto).
        rewrite (proj1 (In_lookup (vok := relok) (sel nv) q (sok_distinct (vok := relok) nv Hnv) (sok_allok (vok := relok) nv Hnv) Hqo) HNVq) in Hl.
        apply lookup_Some in Hl. tauto. }
      assert (Hkq : ks <> q) by (intros H; rewrite <- H, (veq_refl (vok := relok)) in Eqq by auto; discriminate).
      assert (HNV1 : sel nv = [q]).
      { apply one_list; auto. apply (distinct_NoDup (vok := relok)); [apply (sok_allok (vok := relok))|apply (sok_distinct (vok := relok))]; auto. }
      assert (Htwo : sel all = [q; ks]).
      { apply (with_one (vok' := relok) nv q ks all); auto. apply not_true_is_false. intros H. rewrite (veq_sym (vok := relok) q ks) in Eqq; auto. discriminate. }
      rewrite Htwo. split; [discriminate|]. split; [intros r [<-|[<-|[]]]; auto|]. split; [cbn; lia|].
      intros r Er. cbn [r_join foldM] in Er.
      * destruct (r_join2 q ks) as [r'| |] eqn:Ej; try discriminate. cbn [bind] in Er. injection Er as <-.
        destruct (r_join2_pairs q ks r' Hqo Hks HRG' (or_intror HKn) Ej) as [Hr HM]. split; auto. intros y Hy. rewrite HM, HU by auto.
        split; intros (b & x & Hb & Hx & HC & H).
        -- assert (Hob : tupok b) by (apply (sok_allok q Hqo); auto). assert (Hox : tupok x) by (apply (sok_allok ks Hks); auto).
           exists x, b. split; auto. split; auto. split; [apply compatible_sym; auto|]. apply over_comm; auto. apply compatible_sym; auto.
        -- assert (Hob : tupok b) by (apply (sok_allok ks Hks); auto). assert (Hox : tupok x) by (apply (sok_allok q Hqo); auto).
           exists x, b. split; auto. split; auto. split; [apply compatible_sym; auto|]. apply over_comm; auto. apply compatible_sym; auto.
  - (* the attribute is missing *)
    assert (Hone : sel all = [ks]).
    { apply one_list; auto. intros z Hz. destruct (Hin_all z Hz) as [H|[H _]]; auto. exfalso.
      destruct (m_values_in (kok' := kok) (valok' := relok) m nv Hm Hvm Env z H) as (e & He & _).
      destruct (HM2 e He) as (e0 & He0 & _). destruct (HPe e0 He0) as [H0 _]. congruence. }
    rewrite Hone. split; [discriminate|]. split; [intros r [<-|[]]; auto|]. split; [cbn; lia|].
    intros r Er. cbn in Er. injection Er as <-. split; auto. intros y Hy. unfold unnests. rewrite Eta, smem_meets by auto. rewrite HKS.
    assert (HX : forall j, kok j -> mget xo j = mget t j).
    { intros j Hj. rewrite HW by auto. cbn. rewrite orb_false_r. destruct (veq a j) eqn:Eq; auto. rewrite <- Eta. apply mget_veq; auto. }
    split.
    + intros (z & [<-|[]] & HM). eapply meets_ext; [|exact HM]. intros; symmetry; auto.
    + intros HM. exists xo. split; [left; auto|]. eapply meets_ext; [|exact HM]. auto.
Qed.

Lemma r_unnest_ok s a r : relok s -> kok a -> (forall x, In x (sel s) -> nestable a x) -> r_unnest s a = Ok r ->
  relok r /\ forall y, tupok y -> smem r y <-> exists x, In x (sel s) /\ unnests a x y.
Proof.
  intros Hs Ha HN E1. unfold r_unnest in E1. rewrite (s_elements_ok (vok := tupok)) in E1 by auto. cbn [bind] in E1.
  destruct (foldM _ _ _) as [b| |] eqn:Ef; try discriminate. cbn [bind] in E1. injection E1 as <-.
  match type of Ef with foldM ?F _ _ = _ => destruct (fold_mem (vok := tupok) F (unnests a) (sel s))
    with (b := mkSB (@emptyTree tuple)) (b' := b) as [Hb HM] end; auto; [|apply (bok_empty (vok := tupok))|].
  - intros b0 t b1 Ht Hb0 Es. pose proof (sok_allok s Hs t Ht) as Hot.
    destruct (unnest_step_ok a t Hot Ha (HN t Ht)) as (l & El & _ & _ & _ & HL).
    assert (Hsp : exists r, r_join l = Ok r /\ (js <- s_elements r ;; sb_addAll b0 js) = Ok b1).
    { unfold unnest_step in El. cbv beta in Es.
      destruct (m_without t a) as [key| |]; cbn [bind] in *; try discriminate.
      destruct (m_project t [a]) as [p| |]; cbn [bind] in *; try discriminate.
      destruct (m_mapM p _) as [nm| |]; cbn [bind] in *; try discriminate.
      destruct (m_values nm) as [nv| |]; cbn [bind] in *; try discriminate.
      destruct (s_new [key]) as [ks| |]; cbn [bind] in *; try discriminate.
      destruct (s_with nv ks) as [all| |]; cbn [bind] in *; try discriminate.
      destruct (s_elements all) as [l'| |]; cbn [bind] in *; try discriminate.
      rewrite El in Es. destruct (r_join l) as [r0| |]; cbn [bind] in *; try discriminate. eauto. }
    destruct Hsp as (r0 & Er0 & Ea). destruct (HL r0 Er0) as [Hr0 HU].
    rewrite (s_elements_ok (vok := tupok)) in Ea by auto. cbn [bind] in Ea.
    destruct (sb_addAll_ok (vok := tupok) (sel r0) b0 Hb0) as (b2 & Eb2 & Hb2 & HL2); [apply (sok_allok (vok := tupok)); auto|].
    rewrite Eb2 in Ea. injection Ea as <-. split; auto. intros y Hy. rewrite <- HU by auto. unfold bmem. rewrite HL2 by auto.
    rewrite (findLast_distinct (vok := tupok)); auto; [|apply (sok_distinct (vok := tupok)); auto|apply (sok_allok (vok := tupok)); auto].
    unfold smem. destruct (lookup (sel r0) y); [split; [intros _; right; discriminate|discriminate]|]. tauto.
  - split; auto. intros y Hy. change (smem _ y) with (bmem b y). rewrite HM by auto. split; [|auto].
    intros [H|H]; auto. exfalso. apply H. reflexivity.
Qed.

Lemma r_unnest_returns s a : fewCollisions -> relok s -> kok a -> (forall x, In x (sel s) -> nestable a x) -> exists r, r_unnest s a = Ok r.
Proof.
  intros Hf Hs Ha HN. unfold r_unnest. rewrite (s_elements_ok (vok := tupok)) by auto. cbn [bind].
  match goal with |- context [foldM ?F _ _] => destruct (fold_returns (fun b => bok (vok := tupok) b) F (sel s)) with (b := mkSB (@emptyTree tuple)) as (rb & Erb & _) end.
  - intros b0 t Ht Hb0. pose proof (sok_allok s Hs t Ht) as Hot.
    destruct (unnest_step_ok a t Hot Ha (HN t Ht)) as (l & El & Hln & Hlo & Hll & HL).
    assert (Hj : exists r, r_join l = Ok r).
    { destruct l as [|r1 [|r2 [|r3 l]]]; [congruence|..]; cbn [r_join foldM]; [eauto| |cbn in Hll; lia].
      destruct (r_join2_returns r1 r2 Hf) as (r & Er); [apply Hlo; left; auto|apply Hlo; right; left; auto|]. rewrite Er. cbn [bind]. eauto. }
    destruct Hj as (r0 & Er0). destruct (HL r0 Er0) as [Hr0 _].
    destruct (sb_addAll_ok (vok := tupok) (sel r0) b0 Hb0) as (b2 & Eb2 & Hb2 & _); [apply (sok_allok (vok := tupok)); auto|].
    exists b2. split; auto. rewrite Er0 in El. unfold unnest_step in El. 
    destruct (m_without t a) as [key| |]; cbn [bind] in *; try discriminate.
    destruct (m_project t [a]) as [p| |]; cbn [bind] in *; try discriminate.
    destruct (m_mapM p _) as [nm| |]; cbn [bind] in *; try discriminate.
    destruct (m_values nm) as [nv| |]; cbn [bind] in *; try discriminate.
    destruct (s_new [key]) as [ks| |]; cbn [bind] in *; try discriminate.
    destruct (s_with nv ks) as [all| |]; cbn [bind] in *; try discriminate.
    destruct (s_elements all) as [l'| |]; cbn [bind] in *; try discriminate.
    rewrite El. cbn [bind]. rewrite (s_elements_ok (vok := tupok)) by auto. cbn [bind]. auto.
  - apply (bok_empty (vok := tupok)).
  - rewrite Erb. cbn [bind]. eauto.
Qed.

(** Nesting under a single attribute that is not among the remaining ones, then unnesting. *)
Section Inverse.
Context (s : relation) (AA : gomap X (set X)) (a : X) (A : set X).
Hypothesis Hs : relok s.
Hypothesis HA : mok kok AA.
Hypothesis Hv : vals_ok setok AA.
Hypothesis Ha : kok a.
Hypothesis HAo : setok A.
Hypothesis HAA : forall k, kok k -> mget AA k = if veq a k then Some A else None.
Hypothesis Hfree : forall t, In t (sel s) -> hasAttr (sel A) a = true \/ mget t a = None.

Lemma one_inAll ka : (forall j, kok j -> hasAttr ka j = true <-> inAll AA j) -> forall j, kok j -> hasAttr ka j = hasAttr (sel A) j.
Proof.
  intros HK j Hj. apply eq_true_iff_eq. rewrite HK, (hasAttr_lookup (sel A)) by auto.
  assert (HB : isSome (lookup (sel A) j) = true <-> lookup (sel A) j <> None).
  { destruct (lookup (sel A) j); cbn; split; congruence. }
  rewrite HB. split.
  - intros H. apply (H a); auto. rewrite HAA, (veq_refl (vok := kok)); auto.
  - intros H k B Hk HB'. rewrite HAA in HB' by auto. destruct (veq a k); [|discriminate]. injection HB' as <-. auto.
Qed.

Lemma nest_tuple ka t x : (forall k, In k ka -> kok k) -> (forall j, kok j -> hasAttr ka j = true <-> inAll AA j) ->
  In t (sel s) -> isNest s ka AA t x ->
  tupok x /\
  (exists p, (forall k, kok k -> veq a k = true -> mget x k = Some (toAny p)) /\ nestedOf s ka t A p /\ sel p <> []) /\
  (forall j, kok j -> veq a j = false -> opteq (mget x j) (if hasAttr (sel A) j then None else mget t j)).
Proof.
  intros Hka HK Ht [Hx HN]. pose proof (sok_allok s Hs t Ht) as Hot. destruct (wo_ok t ka Hot Hka) as (_ & Hw & HW).
  pose proof (one_inAll ka HK) as HO. split; auto. split.
  - pose proof (HN a Ha) as H. rewrite HW in H by auto. rewrite HO in H by auto.
    assert (Hn : (if hasAttr (sel A) a then None else mget t a) = None).
    { destruct (Hfree t Ht) as [H0|H0]; rewrite H0; auto. destruct (hasAttr (sel A) a); auto. }
    rewrite Hn, HAA, (veq_refl (vok := kok)) in H by auto. destruct H as (p & Hp & HP). exists p. split; [|split; auto].
    + intros k Hk Hq. rewrite <- Hp. symmetry. apply mget_veq; auto.
    + destruct HP as [Hpo HP].
      destruct (pr_ok t (sel A) Hot) as (_ & Hpt & HPT); [apply (sok_allok (vok := kok)); auto|].
      assert (Hm : smem p (pr t (sel A))).
      { apply HP; auto. exists t. split; auto. split; [apply (veq_refl (vok := tupok)); auto|].
        intros j Hj. rewrite HPT by auto. destruct (hasAttr (sel A) j); [|exact Logic.I]. apply opteq_refl. mvals. }
      intros Hn'. unfold smem in Hm. rewrite Hn' in Hm. apply Hm. reflexivity.
  - intros j Hj Hq. specialize (HN j Hj). rewrite HW in HN by auto. rewrite HO in HN by auto. rewrite HAA, Hq in HN by auto.
    destruct (if hasAttr (sel A) j then None else mget t j) as [v|]; auto. rewrite HN. exact Logic.I.
Qed.

Lemma unnest_nest r u : r_nest s AA = Ok r -> (forall x, In x (sel r) -> nestable a x) /\
  (r_unnest r a = Ok u -> relok u /\ forall y, tupok y -> smem u y <-> smem s y).
Proof.
  intros E1. destruct (r_nest_ok s AA r Hs HA Hv E1) as (ka & Hka & HK & Hr & HL & HEx & HM).
  pose proof (one_inAll ka HK) as HO.
  assert (HXO : forall x, tupok x -> forall j, kok j -> mget (wo x [a]) j = if veq a j then None else mget x j).
  { intros x Hx j Hj. destruct (wo_ok x [a] Hx) as (_ & _ & HW); [intros k [<-|[]]; auto|]. rewrite HW by auto. cbn. rewrite orb_false_r. auto. }
  (* the nested tuples of [x] have attributes of [A] only, the rest of [x] has none of these *)
  assert (HB : forall t p b, In t (sel s) -> nestedOf s ka t A p -> In b (sel p) -> tupok b /\
     exists t', In t' (sel s) /\ @veq _ mapKey (wo t' ka) (wo t ka) = true /\ meets b (fun j => if hasAttr (sel A) j then mget t' j else None)).
  { intros t p b Ht [Hp HP] Hb. pose proof (sok_allok p Hp b Hb) as Hob. split; auto. apply HP; auto. apply smem_iff. exists b. split; auto.
    apply (veq_refl (vok := tupok)); auto. }
  assert (HNone : forall t p b x j, In t (sel s) -> isNest s ka AA t x -> nestedOf s ka t A p -> In b (sel p) -> kok j ->
     mget (wo x [a]) j = None \/ mget b j = None).
  { intros t p b x j Ht HNx HNp Hb Hj. destruct (nest_tuple ka t x Hka HK Ht HNx) as (Hx & _ & Hrest).
    destruct (HB t p b Ht HNp Hb) as (Hob & t' & Ht' & _ & HMb). specialize (HMb j Hj). cbv beta in HMb. rewrite HXO by auto.
    destruct (veq a j) eqn:Eq; auto. specialize (Hrest j Hj Eq). destruct (hasAttr (sel A) j).
    - left. apply opteq_None; auto.
    - right. apply opteq_None; auto. }
  assert (HNB : forall x, In x (sel r) -> nestable a x).
  { intros x Hx v Hxv. destruct (HL x Hx) as (t & Ht & HNx). destruct (nest_tuple ka t x Hka HK Ht HNx) as (Hox & (p & Hp & HNp & Hpn) & Hrest).
    assert (Hva : v = toAny p) by (specialize (Hp a Ha (veq_refl (vok := kok) a Ha)); congruence). exists p. split; auto.
    intros b b' j Hb Hb' Hj. destruct (HNone t p b x j Ht HNx HNp Hb Hj) as [H1|H1]; destruct (HNone t p b' x j Ht HNx HNp Hb' Hj) as [H2|H2];
      rewrite ?H1, ?H2; cbn; rewrite ?andb_false_r; auto. }
  split; auto. intros E2. destruct (r_unnest_ok r a u Hr Ha HNB E2) as [Hu HU]. split; auto. intros y Hy. rewrite HU by auto. split.
  - intros (x & Hx & Hun). destruct (HL x Hx) as (t & Ht & HNx). destruct (nest_tuple ka t x Hka HK Ht HNx) as (Hox & (p & Hp & HNp & Hpn) & Hrest).
    unfold unnests in Hun. rewrite (Hp a Ha (veq_refl (vok := kok) a Ha)) in Hun. destruct Hun as (p' & b & Hpp & Hb & _ & HMy).
    assert (p' = p) by (pose proof (from_to p) as F1; rewrite Hpp, from_to in F1; congruence). subst p'.
    destruct (HB t p b Ht HNp Hb) as (Hob & t' & Ht' & Hqt & HMb). apply smem_meets; auto. exists t'. split; auto.
    pose proof (sok_allok s Hs t' Ht') as Hot'. pose proof (sok_allok s Hs t Ht) as Hot.
    destruct (wo_ok t ka Hot Hka) as (_ & Hw & HW). destruct (wo_ok t' ka Hot' Hka) as (_ & Hw' & HW').
    apply teq_meets in Hqt; auto.
    intros j Hj. specialize (HMy j Hj). unfold over in HMy. rewrite HXO in HMy by auto. specialize (HMb j Hj). cbv beta in HMb.
    specialize (Hqt j Hj). rewrite HW, HW', HO in Hqt by auto.
    destruct (mget b j) as [w|] eqn:Eb.
    + destruct (hasAttr (sel A) j); [|destruct HMb]. rewrite <- Eb in *. apply (opteq_trans (mget y j) (mget b j) (mget t' j)); try mvals; auto.
    + destruct (veq a j) eqn:Eq.
      * rewrite <- (mget_veq t' a j) by auto. destruct (Hfree t' Ht') as [Hf|Hf]; [|rewrite Hf; auto].
        rewrite (hasAttr_veq (sel A) a j) in Hf by (auto; apply (sok_allok (vok := kok)); auto). rewrite Hf in HMb.
        rewrite (mget_veq t' a j) by auto. destruct (mget t' j); [destruct HMb|auto].
      * specialize (Hrest j Hj Eq). destruct (hasAttr (sel A) j).
        -- apply opteq_None in Hrest. rewrite Hrest in HMy. destruct (mget t' j); [destruct HMb|auto].
        -- apply (opteq_trans (mget y j) (mget x j) (mget t' j)); try mvals; auto.
           apply (opteq_trans (mget x j) (mget t j) (mget t' j)); try mvals; auto. apply opteq_sym; try mvals. auto.
  - intros Hm. apply smem_meets in Hm as (t & Ht & HMt); auto. pose proof (sok_allok s Hs t Ht) as Hot.
    destruct (wo_ok t ka Hot Hka) as (_ & Hw & HW).
    (* the tuple of the result that stands for the group of [t] *)
    destruct (HEx t Ht) as (u0 & HNu). destruct (nest_tuple ka t u0 Hka HK Ht HNu) as (Hou & _ & Hrestu).
    assert (Hmu : smem r u0).
    { apply HM; auto. exists t, u0. split; auto. split; auto. apply (veq_refl (vok := tupok)); auto. }
    apply smem_meets in Hmu as (x & Hx & HMx); auto. exists x. split; auto.
    destruct (HL x Hx) as (t' & Ht' & HNx). destruct (nest_tuple ka t' x Hka HK Ht' HNx) as (Hox & (p & Hp & HNp & Hpn) & Hrest).
    pose proof (sok_allok s Hs t' Ht') as Hot'. destruct (wo_ok t' ka Hot' Hka) as (_ & Hw' & HW').
    assert (Hxt : forall j, kok j -> veq a j = false -> opteq (mget x j) (if hasAttr (sel A) j then None else mget t j)).
    { intros j Hj Eq. specialize (HMx j Hj). specialize (Hrestu j Hj Eq).
      apply (opteq_trans (mget x j) (mget u0 j)); try mvals; auto.
      - destruct (hasAttr (sel A) j); [discriminate|mvals].
      - apply opteq_sym; try mvals; auto. }
    assert (Hqt : @veq _ mapKey (wo t ka) (wo t' ka) = true).
    { apply teq_meets; auto. intros j Hj. rewrite HW, HW', HO by auto. destruct (veq a j) eqn:Eq.
      - assert (HNa : forall t0, In t0 (sel s) -> (if hasAttr (sel A) j then None else mget t0 j) = None).
        { intros t0 Ht0. rewrite <- (hasAttr_veq (sel A) a j) by (auto; apply (sok_allok (vok := kok)); auto).
          rewrite <- (mget_veq t0 a j) by (auto; apply (sok_allok s Hs); auto).
          destruct (Hfree t0 Ht0) as [Hf|Hf]; rewrite Hf; auto. destruct (hasAttr (sel A) a); auto. }
        rewrite !HNa by auto. exact Logic.I.
      - specialize (Hxt j Hj Eq). specialize (Hrest j Hj Eq). destruct (hasAttr (sel A) j); [exact Logic.I|].
        apply (opteq_trans (mget t j) (mget x j) (mget t' j)); try mvals; auto. apply opteq_sym; try mvals; auto. }
    destruct (pr_ok t (sel A) Hot) as (_ & Hpt & HPT); [apply (sok_allok (vok := kok)); auto|].
    assert (Hm : smem p (pr t (sel A))).
    { apply HNp; auto. exists t. split; auto. split; auto.
      intros j Hj. rewrite HPT by auto. destruct (hasAttr (sel A) j); [|exact Logic.I]. apply opteq_refl. mvals. }
    apply smem_meets in Hm as (b & Hb & HMb); auto; [|apply HNp].
    destruct (HB t' p b Ht' HNp Hb) as (Hob & _).
    unfold unnests. rewrite (Hp a Ha (veq_refl (vok := kok) a Ha)). exists p, b. split; auto. split; auto. split.
    + intros j Hj H1 H2. destruct (HNone t' p b x j Ht' HNx HNp Hb Hj) as [H|H]; [rewrite H in H1|rewrite H in H2]; discriminate.
    + intros j Hj. specialize (HMt j Hj). specialize (HMb j Hj). rewrite HPT in HMb by auto. unfold over. rewrite HXO by auto.
      destruct (mget b j) as [w|] eqn:Eb.
      * destruct (hasAttr (sel A) j); [|destruct HMb]. rewrite <- Eb in *. apply (opteq_trans (mget y j) (mget t j) (mget b j)); try mvals; auto.
      * destruct (veq a j) eqn:Eq.
        -- destruct (hasAttr (sel A) j) eqn:EA.
           ++ destruct (mget t j); [destruct HMb|auto].
           ++ rewrite <- (mget_veq t a j) in HMt by auto. destruct (Hfree t Ht) as [Hf|Hf]; [|rewrite Hf in HMt; auto].
              rewrite (hasAttr_veq (sel A) a j) in Hf by (auto; apply (sok_allok (vok := kok)); auto). congruence.
        -- specialize (Hxt j Hj Eq). destruct (hasAttr (sel A) j).
           ++ apply opteq_None in Hxt. rewrite Hxt. destruct (mget t j); [destruct HMb|auto].
           ++ apply (opteq_trans (mget y j) (mget t j) (mget x j)); try mvals; auto. apply opteq_sym; try mvals; auto.
Qed.

End Inverse.
End RelFacts.
