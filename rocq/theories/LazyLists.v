(** * LazyLists: lists as sets, up to equality of elements, and the subsets of a list. *)
From Verif Require Import Base Bits Env EnvFacts Node NodeWf Iter Tree TreeFacts SetApi SetFacts BitFacts PowersetFacts Reach Lazy.

Section LazyLists.
Context {E : Env} {HE : EnvOk E} {T : Type} {K : Key T} {vok : T -> Prop} {KO : KeyOk K vok} {B : Boxes T}.
Notation sok := (sok vok).
Notation allok := (NodeWf.allok vok).
Notation rok := (SetReach vok).

(** ** Membership in lists, up to [veq] *)

Definition mem (l : list T) (x : T) : bool := existsb (fun e => veq e x) l.

Lemma mem_lookup l x : mem l x = isSome (lookup l x).
Proof. unfold mem, lookup. induction l as [|a l IH]; simpl; auto. destruct (veq a x); auto. Qed.

Lemma mem_app l1 l2 x : mem (l1 ++ l2) x = (mem l1 x || mem l2 x)%bool.
Proof. apply existsb_app. Qed.

Lemma mem_true l x : mem l x = true <-> exists e, In e l /\ veq e x = true.
Proof. apply existsb_exists. Qed.

Lemma mem_false l x : mem l x = false <-> forall e, In e l -> veq e x = false.
Proof.
  split.
  - intros H e He. destruct (veq e x) eqn:Ev; auto. assert (mem l x = true); [|congruence].
    apply mem_true. eauto.
  - intros H. destruct (mem l x) eqn:Em; auto. apply mem_true in Em as (e & He & Hv).
    rewrite H in Hv by auto. discriminate.
Qed.

Lemma mem_veq l a b : allok l -> vok a -> vok b -> veq a b = true -> mem l a = mem l b.
Proof. intros. rewrite !mem_lookup. rewrite (lookup_veq (vok := vok) l a b); auto. Qed.

(** Tests that respect [veq]. *)
Definition predOk (p : T -> bool) : Prop := forall a b, vok a -> vok b -> veq a b = true -> p a = p b.
(** Mappers that respect [veq]. *)
Definition mapOk (m : T -> T) : Prop :=
  (forall a, vok a -> vok (m a)) /\ (forall a b, vok a -> vok b -> veq a b = true -> veq (m a) (m b) = true).

Lemma mem_filter p l x : allok l -> vok x -> predOk p -> mem (filter p l) x = (mem l x && p x)%bool.
Proof.
  intros Ho Hx Hp. induction l as [|a l IH]; auto.
  assert (Ha : vok a) by (apply Ho; left; auto).
  simpl. destruct (veq a x) eqn:Ev.
  - rewrite (Hp a x) by auto. destruct (p x) eqn:Px; simpl.
    + rewrite Ev. auto.
    + fold (mem (filter p l) x). rewrite IH by (eapply allok_tl; eauto). apply andb_false_r.
  - simpl. fold (mem l x). rewrite <- IH by (eapply allok_tl; eauto).
    destruct (p a); simpl; [rewrite Ev|]; auto.
Qed.

Lemma mem_predOk l : allok l -> predOk (mem l).
Proof. intros H a b Ha Hb Hv. apply mem_veq; auto. Qed.

Lemma negb_predOk p : predOk p -> predOk (fun x => negb (p x)).
Proof. intros H a b Ha Hb Hv. rewrite (H a b); auto. Qed.

Lemma allok_map m l : allok l -> mapOk m -> allok (map m l).
Proof. intros H [Hm _] e He. apply in_map_iff in He as (y & <- & Hy). auto. Qed.

(** No value is in both lists. *)
Definition disjoint (l1 l2 : list T) : Prop := forall x, vok x -> mem l1 x = true -> mem l2 x = false.
(** The mapper does not merge values of the list. *)
Definition injOn (m : T -> T) (l : list T) : Prop := forall y z, vok y -> vok z -> mem l y = true -> mem l z = true ->
  veq (m y) (m z) = true -> veq y z = true.

(** ** Counting *)

(** [l] has [n] elements, counting equal ones once. *)
Definition cardIs (l : list T) (n : Z) : Prop :=
  exists l', allok l' /\ distinct l' /\ (forall x, vok x -> mem l' x = mem l x) /\ n = Z.of_nat (length l').

Lemma distinct_mem_length l1 l2 : allok l1 -> allok l2 -> distinct l1 ->
  (forall x, vok x -> mem l1 x = true -> mem l2 x = true) -> length l1 <= length l2.
Proof.
  intros H1 H2 Hd Hm. apply (distinct_length_le (vok := vok)); auto. intros a Ha.
  assert (Hv : vok a) by auto. assert (Hx : mem l2 a = true).
  { apply Hm; auto. apply mem_true. exists a. split; auto. apply veq_refl; auto. }
  apply mem_true in Hx as (b & Hb & Hba). exists b. split; auto. apply veq_sym; auto.
Qed.

Lemma cardIs_unique l n m : cardIs l n -> cardIs l m -> n = m.
Proof.
  intros (l1 & A1 & D1 & M1 & ->) (l2 & A2 & D2 & M2 & ->). f_equal. apply Nat.le_antisymm.
  - apply distinct_mem_length; auto. intros x Hx. rewrite M1, M2; auto.
  - apply distinct_mem_length; auto. intros x Hx. rewrite M1, M2; auto.
Qed.

Lemma cardIs_ext l l' n : (forall x, vok x -> mem l x = mem l' x) -> cardIs l n -> cardIs l' n.
Proof. intros H (l1 & A & D & M & ->). exists l1. repeat split; auto. intros x Hx. rewrite M, H; auto. Qed.

Lemma cardIs_nil : cardIs [] 0.
Proof. exists []. split; [apply allok_nil|]. split; [constructor|]. split; auto. Qed.

Lemma card_exists l : allok l -> exists n, cardIs l n.
Proof.
  induction l as [|a l IH]; intros Ho; [exists 0%Z; apply cardIs_nil|].
  assert (Ha : vok a) by (apply Ho; left; auto).
  destruct IH as (n & l' & A & D & M & ->); [eapply allok_tl; eauto|].
  destruct (mem l a) eqn:Hm.
  - exists (Z.of_nat (length l')), l'. repeat split; auto. intros x Hx. rewrite M by auto. simpl.
    destruct (veq a x) eqn:Ev; auto. simpl. rewrite <- (mem_veq l a x); auto. eapply allok_tl; eauto.
  - exists (Z.of_nat (length (a :: l'))), (a :: l'). split; [apply allok_cons; auto|]. split; [|split; auto].
    + constructor; auto. intros b Hb. rewrite (veq_comm (vok := vok)) by auto. apply mem_false with (l := l'); auto.
      rewrite M; auto.
    + intros x Hx. simpl. unfold mem in *. rewrite M; auto.
Qed.

Lemma card_step l l' v n : allok l' -> vok v -> (forall x, vok x -> mem l x = (veq v x || mem l' x)%bool) ->
  mem l' v = false -> cardIs l n -> exists n', cardIs l' n' /\ n = (1 + n')%Z.
Proof.
  intros Ho Hv Hm Hn Hc. destruct (card_exists l' Ho) as (n' & l1 & A & D & M & ->).
  exists (Z.of_nat (length l1)). split; [exists l1; auto|].
  apply (cardIs_unique l n); auto. exists (v :: l1). split; [apply allok_cons; auto|]. split; [|split].
  - constructor; auto. intros b Hb. rewrite (veq_comm (vok := vok)) by auto. apply mem_false with (l := l1); auto.
    rewrite M; auto.
  - intros x Hx. simpl. unfold mem in *. rewrite M, Hm; auto.
  - cbn [length]. lia.
Qed.

Lemma card_nonneg l n : cardIs l n -> (0 <= n)%Z.
Proof. intros (l' & _ & _ & _ & ->). lia. Qed.

Lemma card_le a b k n : (forall x, vok x -> mem a x = true -> mem b x = true) -> cardIs a k -> cardIs b n -> (k <= n)%Z.
Proof.
  intros H (l1 & A1 & D1 & M1 & ->) (l2 & A2 & D2 & M2 & ->). apply Nat2Z.inj_le.
  apply distinct_mem_length; auto. intros x Hx. rewrite M1, M2; auto.
Qed.

(** ** Subsets *)

Lemma findLast_mem l x : isSome (findLast l x) = mem l x.
Proof.
  unfold findLast, mem. rewrite <- (rev_involutive l) at 2. generalize (rev l). clear l.
  induction l as [|a l IH]; auto. simpl. rewrite existsb_app. simpl. destruct (veq a x); simpl.
  - rewrite orb_true_r. auto.
  - rewrite !orb_false_r. auto.
Qed.


(** All sublists. *)
Fixpoint sublists {A} (l : list A) : list (list A) :=
  match l with [] => [[]] | a :: l => sublists l ++ map (cons a) (sublists l) end.

Lemma sublists_In {A} (l : list A) x : In x (sublists l) -> forall a, In a x -> In a l.
Proof.
  revert x. induction l as [|b l IH]; simpl; intros x Hx a Ha.
  - destruct Hx as [<-|[]]. destruct Ha.
  - apply in_app_iff in Hx as [Hx|Hx].
    + right. eapply IH; eauto.
    + apply in_map_iff in Hx as (y & <- & Hy). destruct Ha as [<-|Ha]; auto. right. eapply IH; eauto.
Qed.

Lemma sublists_filter {A} (p : A -> bool) l : In (filter p l) (sublists l).
Proof.
  induction l as [|a l IH]; simpl; auto. apply in_app_iff. destruct (p a); auto. right. apply in_map. auto.
Qed.

Lemma sublists_length {A} (l : list A) : length (sublists l) = 2 ^ length l.
Proof. induction l as [|a l IH]; simpl; auto. rewrite app_length, map_length, IH. lia. Qed.

Lemma rok_ok u : rok u -> sok u.
Proof. apply sreach_ok. Qed.

(** The set of the values of a list. *)
Definition setOf (l : list T) : set T := match s_new l with Ok s => s | _ => s_empty end.

Lemma setOf_ok l : allok l -> rok (setOf l) /\ forall w, vok w -> mem (sel (setOf l)) w = mem l w.
Proof.
  intros Ho. destruct (s_new_ok (vok := vok) l Ho) as (r & E1 & Hr & Hl). unfold setOf. rewrite E1. split; [eapply sr_new; eauto|].
  intros w Hw. rewrite mem_lookup, Hl, findLast_mem; auto.
Qed.

(** The elements of [u] are among [l]. *)
Definition sub (u : set T) (l : list T) : Prop := forall w, vok w -> mem (sel u) w = true -> mem l w = true.

(** The values that stand for the subsets of [l] are in the domain of the key operations and equal only for
    equal subsets, and a value that holds a frozen set holds one made by the library. *)
Definition boxLaw (l : list T) : Prop :=
  (forall u, rok u -> sub u l -> vok (box u)) /\
  (forall a b, rok a -> rok b -> sub a l -> sub b l -> (veq (box a) (box b) = true <-> seqv vok a b)) /\
  (forall x ss, vok x -> unbox x = Some ss -> rok ss).

Lemma boxLaw_mem l l' : (forall x, vok x -> mem l x = mem l' x) -> boxLaw l -> boxLaw l'.
Proof.
  intros H (H1 & H2 & H3).
  assert (Hs : forall u, sub u l' -> sub u l) by (intros u Hu w Hw Hm; rewrite H; auto).
  split; [|split]; auto.
Qed.

Lemma seqv_mem (a b : set T) : seqv vok a b <-> forall w, vok w -> mem (sel a) w = mem (sel b) w.
Proof.
  unfold seqv. split; intros H w Hw; specialize (H w Hw); rewrite !mem_lookup in *;
    destruct (lookup (sel a) w), (lookup (sel b) w); simpl in *; try tauto; try discriminate; try (split; congruence);
    destruct H as [H1 H2]; exfalso; [apply H1|apply H2]; congruence.
Qed.

Lemma sub_seqv a b l : seqv vok a b -> sub a l -> sub b l.
Proof. intros H Ha w Hw. rewrite seqv_mem in H. rewrite <- H by auto. auto. Qed.

Lemma mem_bool_lookup (u : set T) w : mem (sel u) w = true <-> lookup (sel u) w <> None.
Proof. rewrite mem_lookup. destruct (lookup (sel u) w); simpl; split; congruence. Qed.

Lemma sub_filter u l : allok l -> rok u -> sub u l -> seqv vok u (setOf (filter (mem (sel u)) l)).
Proof.
  intros Ho Hu Hs. apply seqv_mem. intros w Hw.
  rewrite (proj2 (setOf_ok (filter (mem (sel u)) l) (allok_filter _ _ Ho))) by auto.
  rewrite mem_filter by auto using mem_predOk, sok_allok, rok_ok.
  destruct (mem (sel u) w) eqn:Em; [rewrite (Hs w Hw Em)|rewrite andb_false_r]; auto.
Qed.

(** The power set: the values of all subsets. *)
Definition pset (l : list T) : list T := map (fun x => box (setOf x)) (sublists l).

Lemma allok_sublist l x : allok l -> In x (sublists l) -> allok x.
Proof. intros Ho Hx a Ha. apply Ho. eapply sublists_In; eauto. Qed.

Lemma sub_setOf l x : allok l -> In x (sublists l) -> sub (setOf x) l.
Proof.
  intros Ho Hx w Hw. rewrite (proj2 (setOf_ok x (allok_sublist l x Ho Hx))) by auto.
  rewrite !mem_true. intros (e & He & Hv). exists e. split; auto. eapply sublists_In; eauto.
Qed.

Lemma pset_allok l : allok l -> boxLaw l -> allok (pset l).
Proof.
  intros Ho (H1 & _) e He. apply in_map_iff in He as (x & <- & Hx). apply H1.
  - apply setOf_ok. eapply allok_sublist; eauto.
  - apply sub_setOf; auto.
Qed.

Lemma pset_mem l x : allok l -> boxLaw l -> vok x ->
  mem (pset l) x = true <-> exists u, rok u /\ sub u l /\ veq (box u) x = true.
Proof.
  intros Ho (H1 & H2 & _) Hx. rewrite mem_true. split.
  - intros (e & He & Hv). apply in_map_iff in He as (y & <- & Hy). exists (setOf y).
    split; [apply setOf_ok; eapply allok_sublist; eauto|]. split; auto. apply sub_setOf; auto.
  - intros (u & Hu & Hs & Hv). set (y := filter (mem (sel u)) l).
    assert (Hy : In y (sublists l)) by apply sublists_filter.
    assert (Hyo : rok (setOf y)) by (apply setOf_ok; eapply allok_sublist; eauto).
    assert (Hys : sub (setOf y) l) by (apply sub_setOf; auto).
    exists (box (setOf y)). split; [apply (in_map (fun x => box (setOf x))); auto|].
    apply (veq_trans (vok := vok)) with (box u); auto. apply H2; auto.
    apply seqv_mem. intros w Hw. symmetry. apply seqv_mem; auto. apply sub_filter; auto.
Qed.

(** *** The counting order *)

(** The elements whose bit is set in [g]. *)
Fixpoint bits (g : N) (es : list T) : list T :=
  match es with [] => [] | e :: es => (if N.odd g then [e] else []) ++ bits (N.div2 g) es end.

Lemma bits_In es : forall g w, In w (bits g es) <-> exists j, nth_error es j = Some w /\ N.testbit g (N.of_nat j) = true.
Proof.
  induction es as [|e es IH]; intros g w; simpl.
  - split; [tauto|]. intros ([|j] & Hj & _); discriminate.
  - rewrite in_app_iff, IH. split.
    + intros [H|(j & Hj & Hb)].
      * destruct (N.odd g) eqn:Eo; [destruct H as [<-|[]]|destruct H]. exists 0. split; auto.
        simpl. rewrite N.bit0_odd. auto.
      * exists (S j). split; auto. rewrite N.div2_spec, N.shiftr_spec, N.add_1_r in Hb by lia.
        rewrite Nat2N.inj_succ. auto.
    + intros ([|j] & Hj & Hb).
      * left. injection Hj as ->. simpl in Hb. rewrite N.bit0_odd in Hb. rewrite Hb. left; auto.
      * right. exists j. split; auto. rewrite Nat2N.inj_succ in Hb.
        rewrite N.div2_spec, N.shiftr_spec, N.add_1_r by lia. auto.
Qed.

Lemma bits_matches es g : allok es -> rok (setOf (bits g es)) /\ matches (vok := vok) es (setOf (bits g es)) g.
Proof.
  intros Ho. assert (Hb : allok (bits g es)).
  { intros e He. apply bits_In in He as (j & Hj & _). apply Ho. eapply nth_error_In; eauto. }
  destruct (setOf_ok _ Hb) as [Hs Hm]. split; auto. intros w Hw. rewrite <- mem_bool_lookup, Hm, mem_true by auto. split.
  - intros (e & He & Hv). apply bits_In in He as (j & Hj & Ht). eauto.
  - intros (j & e & Hj & Hv & Ht). exists e. split; auto. apply bits_In. eauto.
Qed.

Lemma matches_sub es u g : matches (vok := vok) es u g -> sub u es.
Proof.
  intros H w Hw Hm. apply mem_bool_lookup in Hm. apply H in Hm as (j & e & Hj & Hv & _); auto.
  apply mem_true. exists e. split; auto. eapply nth_error_In; eauto.
Qed.

Lemma matches_eqv es u v g : seqv vok u v -> matches (vok := vok) es u g -> matches (vok := vok) es v g.
Proof. intros H Hu w Hw. rewrite <- (H w Hw). auto. Qed.

Lemma sub_matches es u : allok es -> rok u -> sub u es ->
  exists k, (k < 2 ^ N.of_nat (length es))%N /\ matches (vok := vok) es u (gray k).
Proof.
  intros Ho Hu Hs. apply subset_matches; auto using rok_ok. intros w Hw Hm. apply mem_bool_lookup in Hm. apply Hs in Hm; auto.
  rewrite mem_lookup in Hm. intros Hc. rewrite Hc in Hm. discriminate.
Qed.

Definition nrange (m n : N) : list N := map N.of_nat (seq (N.to_nat m) (N.to_nat n - N.to_nat m)).

Lemma nrange_In m n k : In k (nrange m n) <-> (m <= k < n)%N.
Proof.
  unfold nrange. rewrite in_map_iff. split.
  - intros (j & <- & Hj). apply in_seq in Hj. lia.
  - intros H. exists (N.to_nat k). split; [lia|]. apply in_seq. lia.
Qed.

(** The subsets of [es ++ rest] that an iterator over the power set has yet to give: it has gone through the
    elements [es] of the source, [rest] are to come, and the next subset of [es] in the counting order is the
    one with number [m]. *)
Definition later (es rest : list T) (m : N) (u : set T) : Prop :=
  (exists k, (m <= k < 2 ^ N.of_nat (length es))%N /\ matches (vok := vok) es u (gray k)) \/
  (sub u (es ++ rest) /\ exists w, vok w /\ mem (sel u) w = true /\ mem rest w = true).

Definition laterList (es rest : list T) (m fin : N) : list T :=
  map (fun x => box (setOf x))
    (map (fun k => bits (gray k) es) (nrange m fin) ++ filter (existsb (mem rest)) (sublists (es ++ rest))).

Lemma later_sub es rest m u : later es rest m u -> sub u (es ++ rest).
Proof.
  intros [(k & _ & Hk)|[H _]]; auto. intros w Hw Hm. rewrite mem_app, (matches_sub _ _ _ Hk w Hw Hm). auto.
Qed.

Lemma later_eqv es rest m u v : seqv vok u v -> later es rest m u -> later es rest m v.
Proof.
  intros He [(k & H1 & Hk)|(H1 & w & Hw & H2 & H3)]; [left|right].
  - exists k. split; auto. eapply matches_eqv; eauto.
  - split; [eapply sub_seqv; eauto|]. exists w. split; auto. split; auto. rewrite seqv_mem in He. rewrite <- He; auto.
Qed.

Lemma laterList_In es rest m e : allok es -> allok rest ->
  In e (laterList es rest m (2 ^ N.of_nat (length es))) -> exists u, rok u /\ later es rest m u /\ e = box u.
Proof.
  intros Ho Hr He. assert (Hor : allok (es ++ rest)) by (apply allok_app; auto).
  apply in_map_iff in He as (y & <- & Hy). exists (setOf y). apply in_app_iff in Hy as [Hy|Hy].
  - apply in_map_iff in Hy as (k & <- & Hk). apply nrange_In in Hk. destruct (bits_matches es (gray k) Ho) as [Hs Hm].
    split; auto. split; auto. left. eauto.
  - apply filter_In in Hy as [Hy Hw]. assert (Hyo : allok y) by (eapply allok_sublist; eauto).
    destruct (setOf_ok y Hyo) as [Hs Hm]. split; auto. split; auto. right. split; [apply sub_setOf; auto|].
    apply existsb_exists in Hw as (w & Hw & Hwr). exists w. assert (vok w) by auto. split; auto. split; auto.
    rewrite Hm by auto. apply mem_true. exists w. split; auto. apply veq_refl; auto.
Qed.

Lemma laterList_mem es rest m x : allok es -> allok rest -> boxLaw (es ++ rest) -> vok x ->
  mem (laterList es rest m (2 ^ N.of_nat (length es))) x = true <->
  exists u, rok u /\ later es rest m u /\ veq (box u) x = true.
Proof.
  intros Ho Hr (H1 & H2 & _) Hx. assert (Hor : allok (es ++ rest)) by (apply allok_app; auto).
  rewrite mem_true. split.
  - intros (e & He & Hv). apply laterList_In in He as (u & Hu & Hl & ->); auto. eauto.
  - intros (u & Hu & Hl & Hv).
    assert (Hin : exists y, In y (map (fun k => bits (gray k) es) (nrange m (2 ^ N.of_nat (length es))) ++
                      filter (existsb (mem rest)) (sublists (es ++ rest))) /\ rok (setOf y) /\ seqv vok (setOf y) u).
    { destruct Hl as [(k & Hk & Hmk)|(Hs & w & Hw & Hwu & Hwr)].
      - exists (bits (gray k) es). destruct (bits_matches es (gray k) Ho) as [Hs Hm].
        split; [apply in_app_iff; left; apply in_map_iff; exists k; split; auto; apply nrange_In; auto|].
        split; auto. eapply matches_seqv; eauto.
      - exists (filter (mem (sel u)) (es ++ rest)). split; [apply in_app_iff; right; apply filter_In; split|split].
        + apply sublists_filter.
        + apply existsb_exists. apply mem_true in Hwr as (r & Hr1 & Hrw). assert (Hvr : vok r) by auto.
          exists r. split.
          * apply filter_In. split; [apply in_app_iff; auto|]. rewrite (mem_veq (sel u) r w); auto. apply sok_allok, rok_ok; auto.
          * apply mem_true. exists r. split; auto. apply veq_refl; auto.
        + apply setOf_ok. apply allok_filter; auto.
        + intros w' Hw'. symmetry. apply (sub_filter u (es ++ rest)); auto. }
    destruct Hin as (y & Hy & Hys & He). exists (box (setOf y)). split; [apply (in_map (fun x => box (setOf x))); auto|].
    assert (Hsub : sub u (es ++ rest)) by (eapply later_sub; eauto).
    assert (Hsub' : sub (setOf y) (es ++ rest)).
    { eapply sub_seqv; [|exact Hsub]. intros w Hw. symmetry. auto. }
    apply (veq_trans (vok := vok)) with (box u); auto. apply H2; auto.
Qed.

Lemma laterList_allok es rest m : allok es -> allok rest -> boxLaw (es ++ rest) ->
  allok (laterList es rest m (2 ^ N.of_nat (length es))).
Proof.
  intros Ho Hr HB e He. apply laterList_In in He as (u & Hu & Hl & ->); auto. apply HB; auto. eapply later_sub; eauto.
Qed.

(** At the start. *)
Lemma later_start rest u : allok rest -> rok u -> later [] rest 0 u <-> sub u rest.
Proof.
  intros Hr Hu. split; [apply (later_sub [])|]. intros Hs.
  destruct (sel u) as [|w l] eqn:El.
  - left. exists 0%N. split; [simpl; lia|]. intros w Hw. rewrite El. simpl. split; [congruence|].
    intros (j & e & Hj & _). destruct j; discriminate.
  - right. split; auto. assert (Hw : vok w) by (apply (sok_allok u (rok_ok u Hu)); rewrite El; left; auto).
    assert (Hm : mem (sel u) w = true) by (rewrite El; simpl; rewrite veq_refl; auto).
    exists w. auto.
Qed.

(** One subset is given. *)
Lemma later_step es rest m v u : distinct es -> allok es -> (m < 2 ^ N.of_nat (length es))%N -> rok v ->
  matches (vok := vok) es v (gray m) -> later es rest m u <-> seqv vok v u \/ later es rest (m + 1) u.
Proof.
  intros Hd Ho Hm Hv Hmv. split.
  - intros [(k & Hk & Hmk)|H]; [|right; right; auto]. destruct (N.eq_dec k m) as [->|Hne].
    + left. eapply matches_seqv; eauto.
    + right. left. exists k. split; auto. lia.
  - intros [H|[(k & Hk & Hmk)|H]].
    + left. exists m. split; [lia|]. eapply matches_eqv; eauto.
    + left. exists k. split; auto. lia.
    + right. auto.
Qed.

(** It is not given again. *)
Lemma later_fresh es rest m v : distinct es -> allok es -> disjoint es rest -> (m < 2 ^ N.of_nat (length es))%N ->
  matches (vok := vok) es v (gray m) -> ~ later es rest (m + 1) v.
Proof.
  intros Hd Ho Hdj Hm Hmv [(k & Hk & Hmk)|(_ & w & Hw & H1 & H2)].
  - assert (k = m); [|lia]. apply gray_inj. apply (matches_inj (vok := vok) es v); auto; apply gray_lt; lia.
  - rewrite (Hdj w Hw) in H2; [discriminate|]. apply (matches_sub _ _ _ Hmv); auto.
Qed.

(** All subsets of [es] have been given: the next element comes in. *)
Lemma matches_snoc es v u k : (k < 2 ^ N.of_nat (length es))%N ->
  matches (vok := vok) (es ++ [v]) u (gray k) <-> matches (vok := vok) es u (gray k).
Proof.
  intros Hk. assert (Hx : forall w j e, nth_error (es ++ [v]) j = Some e -> veq e w = true ->
    N.testbit (gray k) (N.of_nat j) = true -> nth_error es j = Some e).
  { intros w j e Hj _ Ht. destruct (Nat.lt_ge_cases j (length es)) as [Hlt|Hge].
    - rewrite nth_error_app1 in Hj; auto.
    - rewrite (testbit_above (N.of_nat (length es)) (gray k)) in Ht; [discriminate|apply gray_lt; auto|lia]. }
  split; intros H w Hw; rewrite (H w Hw); split; intros (j & e & Hj & Hv & Ht); exists j, e; eauto.
  - split; auto. rewrite nth_error_app1; auto. apply nth_error_Some. congruence.
  - split; auto. rewrite nth_error_app1; auto. apply nth_error_Some. congruence.
Qed.

Lemma later_grow es rest rest' v u : allok es -> allok rest' -> vok v -> rok u -> disjoint es rest ->
  (forall x, vok x -> mem rest x = (veq v x || mem rest' x)%bool) ->
  let m := (2 ^ N.of_nat (length es))%N in
  later es rest m u <-> later (es ++ [v]) rest' m u.
Proof.
  intros Ho Hr' Hv Hu Hdj Hstep m.
  assert (Hmem : forall x, vok x -> mem ((es ++ [v]) ++ rest') x = mem (es ++ rest) x).
  { intros x Hx. rewrite !mem_app, Hstep by auto. simpl. rewrite orb_false_r, orb_assoc. auto. }
  assert (Hov : allok (es ++ [v])) by (apply allok_app; split; auto; apply allok_cons; auto; apply allok_nil).
  assert (Hsub : sub u ((es ++ [v]) ++ rest') <-> sub u (es ++ rest)).
  { split; intros H w Hw H1; specialize (H w Hw H1); rewrite Hmem in *; auto. }
  split.
  - intros [(k & Hk & _)|(Hs & w & Hw & H1 & H2)]; [unfold m in Hk; lia|].
    destruct (existsb (mem rest') (sel u)) eqn:Ex.
    + right. split; [apply Hsub; auto|]. apply existsb_exists in Ex as (w' & Hw' & H').
      assert (vok w') by (apply (sok_allok u (rok_ok u Hu)); auto). exists w'. split; auto. split; auto.
      apply mem_true. exists w'. split; auto. apply veq_refl; auto.
    + assert (Hs' : sub u (es ++ [v])).
      { intros x Hx Hmx. assert (Hx' := Hs x Hx Hmx). rewrite <- Hmem, mem_app in Hx' by auto.
        destruct (mem (es ++ [v]) x) eqn:Em; auto. simpl in Hx'. apply mem_true in Hmx as (y & Hy & Hyx).
        assert (Hvy : vok y) by (apply (sok_allok u (rok_ok u Hu)); auto).
        assert (existsb (mem rest') (sel u) = true); [|congruence]. apply existsb_exists. exists y. split; auto.
        rewrite (mem_veq rest' y x); auto. }
      left. destruct (sub_matches (es ++ [v]) u Hov Hu Hs') as (k & Hk & Hmk). exists k. split; auto. split; auto.
      unfold m. destruct (N.lt_ge_cases k (2 ^ N.of_nat (length es))) as [Hlt|]; auto. exfalso.
      apply matches_snoc in Hmk; auto. assert (H3 := matches_sub _ _ _ Hmk w Hw H1).
      rewrite (Hdj w Hw H3) in H2. discriminate.
  - intros H. right. split; [apply Hsub; eapply later_sub; eauto|].
    destruct H as [(k & Hk & Hmk)|(_ & w & Hw & H1 & H2)].
    2:{ exists w. split; auto. split; auto. rewrite Hstep, H2, orb_true_r; auto. }
    exists v. split; auto. split; [|rewrite Hstep, veq_refl; auto].
    apply mem_bool_lookup. apply Hmk; auto. exists (length es), v. split; [rewrite nth_error_app2, Nat.sub_diag; auto|].
    split; [apply veq_refl; auto|]. rewrite app_length in Hk. simpl in Hk.
    replace (N.of_nat (length es + 1)) with (N.of_nat (length es) + 1)%N in Hk by lia.
    unfold m in Hk. rewrite gray_testbit. rewrite N.add_1_r in Hk.
    rewrite (testbit_above (N.succ (N.of_nat (length es))) k (N.succ (N.of_nat (length es)))) by lia.
    rewrite xorb_false_r. apply N.testbit_true. rewrite N.pow_succ_r' in Hk.
    replace (k / 2 ^ N.of_nat (length es))%N with 1%N; auto.
    apply N.div_unique with (k - 2 ^ N.of_nat (length es))%N; lia.
Qed.

Lemma later_none es rest u : (forall x, vok x -> mem rest x = false) ->
  ~ later es rest (2 ^ N.of_nat (length es)) u.
Proof.
  intros H [(k & Hk & _)|(_ & w & Hw & _ & Hr)]; [lia|]. rewrite H in Hr; auto; discriminate.
Qed.

(** *** One step of the iterator over the power set *)

Lemma pow_flip_ok es m value : distinct es -> allok es -> (length es <= 62)%nat -> rok value ->
  (m < 2 ^ N.of_nat (length es))%N -> matches (vok := vok) es value (gray (N.pred m)) ->
  exists v', pow_flip m es value = Ok v' /\ rok v' /\ matches (vok := vok) es v' (gray m).
Proof.
  intros Hd Ho Hl Hv Hm Hmv. unfold pow_flip. destruct (N.eq_dec m 0) as [->|H0].
  - assert (Hn : nth_error es (bi_index 0) = None).
    { apply nth_error_None. change (bi_index 0) with 64. lia. }
    rewrite Hn. exists value. auto.
  - destruct (flip_ok (vok := vok) es value m) as (e & He & v' & E1 & Hs & Hmm); auto using rok_ok; try lia.
    rewrite He. exists v'. split; auto. split; auto.
    assert (Hve : vok e) by (apply Ho; eapply nth_error_In; eauto).
    destruct (bi_has m (bi_index m + 1)); [eapply sr_without|eapply sr_with]; eauto.
Qed.

Lemma pow_step es rest m value : let fin := (2 ^ N.of_nat (length es))%N in
  distinct es -> allok es -> allok rest -> disjoint es rest -> boxLaw (es ++ rest) ->
  (length es <= 62)%nat -> rok value -> (m < fin)%N -> matches (vok := vok) es value (gray (N.pred m)) ->
  exists v', pow_flip m es value = Ok v' /\ rok v' /\ matches (vok := vok) es v' (gray m) /\ vok (box v') /\
    (forall x, vok x -> mem (laterList es rest m fin) x = (veq (box v') x || mem (laterList es rest (m + 1) fin) x)%bool) /\
    mem (laterList es rest (m + 1) fin) (box v') = false.
Proof.
  intros fin Hd Ho Hr Hdj HB Hl Hv Hm Hmv. unfold fin in *.
  destruct (pow_flip_ok es m value) as (v' & E1 & Hs & Hm'); auto. exists v'. split; auto. split; auto. split; auto.
  assert (Hsub : sub v' (es ++ rest)).
  { intros w Hw H1. rewrite mem_app, (matches_sub _ _ _ Hm' w Hw H1). auto. }
  assert (Hb : vok (box v')) by (apply HB; auto). split; auto.
  assert (Heq : forall u, rok u -> sub u (es ++ rest) -> veq (box v') (box u) = true <-> seqv vok v' u) by (intros; apply HB; auto).
  assert (Hbox : forall u m', rok u -> later es rest m' u -> vok (box u)).
  { intros u m' Hu Hlu. apply HB; auto. eapply later_sub; eauto. }
  split.
  - intros x Hx.
    assert (Hiff : mem (laterList es rest m (2 ^ N.of_nat (length es))) x = true <->
       veq (box v') x = true \/ mem (laterList es rest (m + 1) (2 ^ N.of_nat (length es))) x = true).
    { rewrite !laterList_mem by auto. split.
      - intros (u & Hu & Hlu & Hux). assert (Hlu' := Hlu). apply (later_step es rest m v' u) in Hlu as [He|Hlu]; auto.
        + left. apply (veq_trans (vok := vok)) with (box u); eauto. apply Heq; auto. eapply later_sub; eauto.
        + right. eauto.
      - intros [Hvx|(u & Hu & Hlu & Hux)].
        + exists v'. split; auto. split; auto. apply (later_step es rest m v'); auto. left. intros w Hw. tauto.
        + exists u. split; auto. split; auto. apply (later_step es rest m v'); auto. }
    destruct (veq (box v') x); simpl.
    + apply Hiff. auto.
    + destruct (mem (laterList es rest (m + 1) (2 ^ N.of_nat (length es))) x); [apply Hiff; auto|].
      destruct (mem (laterList es rest m (2 ^ N.of_nat (length es))) x); auto. destruct (proj1 Hiff); auto.
  - destruct (mem (laterList es rest (m + 1) (2 ^ N.of_nat (length es))) (box v')) eqn:Em; auto. exfalso.
    apply laterList_mem in Em as (u & Hu & Hlu & Huv); auto.
    apply (later_fresh es rest m v'); auto. eapply later_eqv; [|exact Hlu].
    intros w Hw. symmetry. apply (Heq u); auto; [eapply later_sub; eauto|].
    apply (veq_sym (vok := vok)); auto. apply HB; auto. eapply later_sub; eauto.
Qed.

Lemma laterList_ext es es' rest rest' m : allok es -> allok es' -> allok rest -> allok rest' ->
  boxLaw (es ++ rest) -> boxLaw (es' ++ rest') ->
  (forall u, rok u -> later es rest m u <-> later es' rest' m u) ->
  forall x, vok x -> mem (laterList es rest m (2 ^ N.of_nat (length es))) x =
                     mem (laterList es' rest' m (2 ^ N.of_nat (length es'))) x.
Proof.
  intros H1 H2 H3 H4 B1 B2 H x Hx. apply eq_true_iff_eq. rewrite !laterList_mem by auto.
  split; intros (u & Hu & Hl & Hv); exists u; split; auto; split; auto; apply H; auto.
Qed.

Lemma pset_start rest : allok rest -> boxLaw rest -> forall x, vok x -> mem (laterList [] rest 0 1) x = mem (pset rest) x.
Proof.
  intros Hr HB x Hx. apply eq_true_iff_eq. rewrite pset_mem by auto.
  change 1%N with (2 ^ N.of_nat (length (@nil T)))%N. rewrite laterList_mem by (auto using (allok_nil (vok := vok))).
  split; intros (u & Hu & Hs & Hv); exists u; split; auto; split; auto; apply later_start; auto.
Qed.

Lemma pset_ext l l' : allok l -> allok l' -> boxLaw l -> (forall x, vok x -> mem l x = mem l' x) ->
  forall x, vok x -> mem (pset l) x = mem (pset l') x.
Proof.
  intros H1 H2 HB H x Hx. apply eq_true_iff_eq. rewrite !pset_mem by eauto using boxLaw_mem.
  split; intros (u & Hu & Hs & Hv); exists u; split; auto; split; auto; intros w Hw Hm; [rewrite <- H|rewrite H]; auto.
Qed.

Lemma distinct_map {A} (f : A -> T) l : NoDup l -> (forall a b, In a l -> In b l -> a <> b -> veq (f a) (f b) = false) ->
  distinct (map f l).
Proof.
  induction 1 as [|a l Ha Hl IH]; simpl; intros H; constructor.
  - intros b Hb. apply in_map_iff in Hb as (c & <- & Hc). apply H; auto. congruence.
  - apply IH. auto.
Qed.

(** The power set of a set of [n] elements has [2^n] elements. *)
Lemma pset_card l n : allok l -> boxLaw l -> cardIs l n -> cardIs (pset l) (2 ^ n).
Proof.
  intros Ho HB (l0 & H1 & H2 & H3 & H4).
  assert (Hmem : forall x, vok x -> mem l x = mem l0 x) by (intros; symmetry; auto).
  assert (HB0 : boxLaw l0) by (eapply boxLaw_mem; eauto).
  exists (map (fun k => box (setOf (bits (gray k) l0))) (nrange 0 (2 ^ N.of_nat (length l0)))).
  assert (Hv : forall k, vok (box (setOf (bits (gray k) l0)))).
  { intros k. destruct (bits_matches l0 (gray k) H1) as [Hs Hm]. apply HB0; auto. eapply matches_sub; eauto. }
  split; [|split; [|split]].
  - intros e He. apply in_map_iff in He as (k & <- & _). auto.
  - apply distinct_map.
    + unfold nrange. apply FinFun.Injective_map_NoDup; [intros a b; apply Nat2N.inj|]. apply seq_NoDup.
    + intros a b Ha Hb Hne. apply nrange_In in Ha, Hb.
      destruct (veq (box (setOf (bits (gray a) l0))) (box (setOf (bits (gray b) l0)))) eqn:Ev; auto. exfalso. apply Hne.
      destruct (bits_matches l0 (gray a) H1) as [Sa Ma]. destruct (bits_matches l0 (gray b) H1) as [Sb Mb].
      apply gray_inj. apply (matches_inj (vok := vok) l0 (setOf (bits (gray a) l0))); auto; try (apply gray_lt; lia).
      eapply matches_eqv; [|exact Mb]. intros w Hw. symmetry. apply HB0; eauto using matches_sub.
  - intros x Hx. apply eq_true_iff_eq. rewrite (pset_ext l l0), pset_mem, mem_true by auto. split.
    + intros (e & He & Hex). apply in_map_iff in He as (k & <- & Hk).
      destruct (bits_matches l0 (gray k) H1) as [Sa Ma]. eexists. split; eauto using matches_sub.
    + intros (u & Hu & Hs & Hux). destruct (sub_matches l0 u H1 Hu Hs) as (k & Hk & Hmk).
      exists (box (setOf (bits (gray k) l0))). destruct (bits_matches l0 (gray k) H1) as [Sa Ma]. split.
      * apply in_map_iff. exists k. split; auto. apply nrange_In. lia.
      * apply (veq_trans (vok := vok)) with (box u); auto; [apply HB0; auto|]. apply HB0; eauto using matches_sub.
        eapply matches_seqv; eauto.
  - unfold nrange. rewrite !map_length, seq_length, H4. rewrite Nat.sub_0_r.
    rewrite N_nat_Z, N2Z.inj_pow, nat_N_Z. reflexivity.
Qed.

End LazyLists.
