(** * SetFacts: what the functions of SetApi.v compute on valid sets. *)
From Verif Require Import Base Bits Env EnvFacts Node NodeWf NodeAdd NodeRemove NodeBin NodeBin2 NodeUn Iter Tree TreeFacts SetApi.

Section SetFacts.
Local Opaque maxTreeDepth fanout fb.
Context {E : Env} {HE : EnvOk E} {T : Type} {K : Key T} {vok : T -> Prop} {KO : KeyOk K vok}.
Notation set := (set T).
Notation allok := (allok vok).
Notation tok := (tok vok).

Definition sel (s : set) : list T := tel (s_tree s).
Definition sok (s : set) : Prop := tok (s_tree s).

Lemma sok_empty : sok s_empty.
Proof. apply tok_empty. Qed.
Lemma sel_empty : sel s_empty = [].
Proof. reflexivity. Qed.

Lemma sok_allok s : sok s -> allok (sel s).
Proof. apply tok_allok. Qed.
Lemma sok_distinct s : sok s -> distinct (sel s).
Proof. apply tok_distinct. Qed.

Lemma s_elements_ok s : sok s -> s_elements s = Ok (sel s).
Proof. apply t_range_ok. Qed.
Lemma s_count_ok s : sok s -> s_count s = Z.of_nat (length (sel s)).
Proof. apply tok_count. Qed.
Lemma s_isEmpty_ok s : sok s -> s_isEmpty s = match sel s with [] => true | _ => false end.
Proof.
  intros H. unfold s_isEmpty. fold (s_count s). rewrite (s_count_ok s H).
  destruct (sel s); simpl; auto.
Qed.

Lemma In_lookup l e : distinct l -> allok l -> vok e -> In e l <-> lookup l e = Some e.
Proof.
  intros Hd Ho He. split; [apply (lookup_In (vok := vok)); auto|].
  intros H. apply lookup_Some in H. tauto.
Qed.

(** Lists that answer every lookup alike hold the same values. *)
Lemma lookup_perm l1 l2 : distinct l1 -> distinct l2 -> allok l1 -> allok l2 ->
  (forall w, vok w -> lookup l1 w = lookup l2 w) -> Permutation l1 l2.
Proof.
  intros Hd1 Hd2 Ho1 Ho2 H. apply NoDup_Permutation.
  - apply (distinct_NoDup (vok := vok)); auto.
  - apply (distinct_NoDup (vok := vok)); auto.
  - intros e. split; intros He.
    + pose proof (Ho1 e He). apply In_lookup; auto. rewrite <- H by auto. apply In_lookup; auto.
    + pose proof (Ho2 e He). apply In_lookup; auto. rewrite H by auto. apply In_lookup; auto.
Qed.

Lemma s_has_ok s v : sok s -> vok v -> s_has s v = Ok (isSome (lookup (sel s) v)).
Proof. intros H Hv. unfold s_has. rewrite (t_get_ok (vok := vok)); auto. Qed.

Lemma has_iff s v : sok s -> vok v -> s_has s v = Ok true <-> exists e, In e (sel s) /\ veq e v = true.
Proof.
  intros H Hv. rewrite s_has_ok; auto. split.
  - destruct (lookup (sel s) v) as [e|] eqn:El; [|discriminate]. intros _.
    apply lookup_Some in El. eauto.
  - intros (e & He & Hq). rewrite (proj2 (lookup_iff (vok := vok) (sel s) v e (sok_distinct s H) (sok_allok s H) Hv)); auto.
Qed.

Lemma s_with_ok s v : sok s -> vok v ->
  exists r, s_with s v = Ok r /\ sok r /\
    (forall w, vok w -> lookup (sel r) w = if veq v w then Some v else lookup (sel s) w) /\
    s_count r = (s_count s + if isSome (lookup (sel s) v) then 0 else 1)%Z.
Proof.
  intros H Hv. unfold s_with. destruct (t_with_ok (s_tree s) v H Hv) as (r & -> & Hr & Hl & Hc).
  exists (mkSet r). auto.
Qed.

Lemma s_without_ok s v : sok s -> vok v ->
  exists r, s_without s v = Ok r /\ sok r /\
    (forall w, vok w -> lookup (sel r) w = if veq v w then None else lookup (sel s) w) /\
    s_count r = (s_count s - if isSome (lookup (sel s) v) then 1 else 0)%Z.
Proof.
  intros H Hv. unfold s_without. destruct (t_without_ok (s_tree s) v H Hv) as (r & -> & Hr & Hl & Hc).
  exists (mkSet r). auto.
Qed.

Definition sclash (s t : set) : Prop := tclash (s_tree s) (s_tree t).

Lemma s_union_ok s t : sok s -> sok t ->
  (sclash s t /\ s_union s t = Panic) \/
  (~ sclash s t /\ exists r, s_union s t = Ok r /\ sok r /\
    (forall w, vok w -> lookup (sel r) w =
       match lookup (sel t) w with Some e => Some e | None => lookup (sel s) w end)).
Proof.
  intros Hs Ht. unfold s_union.
  destruct (t_combine_ok (vok := vok) (combineArgs (s_gauge s) useRHS) (s_tree s) (s_tree t)) as [[HC E1]|(HC & r & E1 & Hr & Hl)]; auto.
  - apply cfok_rhs.
  - left. rewrite E1. auto.
  - right. split; auto. rewrite E1. exists (mkSet r). split; auto. split; auto.
    intros w Hw. unfold sel at 1. cbn [s_tree]. rewrite Hl by auto. unfold comb, combineArgs, useRHS. cbn [c_f].
    unfold sel. destruct (lookup (tel (s_tree s)) w), (lookup (tel (s_tree t)) w); auto.
Qed.

Lemma s_difference_ok s t : sok s -> sok t ->
  exists r, s_difference s t = Ok r /\ sok r /\
    (forall w, vok w -> lookup (sel r) w =
       match lookup (sel t) w with Some _ => None | None => lookup (sel s) w end).
Proof.
  intros Hs Ht. unfold s_difference.
  destruct (t_difference_ok (vok := vok) NonParallel (s_tree s) (s_tree t)) as (r & -> & Hr & Hl); auto.
  exists (mkSet r). auto.
Qed.

Lemma s_intersection_ok s t : sok s -> sok t ->
  exists r, s_intersection s t = Ok r /\ sok r /\
    (forall w, vok w -> isect (lookup (sel s) w) (lookup (sel t) w) (lookup (sel r) w)).
Proof.
  intros Hs Ht. unfold s_intersection.
  destruct (t_intersection_ok (vok := vok) (s_gauge s) (s_tree s) (s_tree t)) as (r & -> & Hr & Hl); auto.
  exists (mkSet r). auto.
Qed.

Lemma s_symmetricDifference_ok s t : sok s -> sok t ->
  exists st ts, s_difference s t = Ok st /\ s_difference t s = Ok ts /\ sok st /\ sok ts /\
  ((sclash st ts /\ s_symmetricDifference s t = Panic) \/
   (~ sclash st ts /\ exists r, s_symmetricDifference s t = Ok r /\ sok r /\
    (forall w, vok w -> lookup (sel r) w =
       match lookup (sel s) w, lookup (sel t) w with
       | Some e, None => Some e
       | None, Some e => Some e
       | _, _ => None
       end))).
Proof.
  intros Hs Ht. unfold s_symmetricDifference.
  destruct (s_difference_ok s t Hs Ht) as (st & E1 & Hst & Hl1).
  destruct (s_difference_ok t s Ht Hs) as (ts & E2 & Hts & Hl2).
  exists st, ts. rewrite E1, E2. cbn [bind]. do 4 (split; auto).
  destruct (s_union_ok st ts Hst Hts) as [[HC E3]|(HC & r & E3 & Hr & Hl)]; rewrite E3; auto.
  right. split; auto. exists r. split; auto. split; auto. intros w Hw. rewrite Hl, Hl1, Hl2 by auto.
  destruct (lookup (sel s) w), (lookup (sel t) w); auto.
Qed.

Lemma s_isSubsetOf_ok s t : sok s -> sok t ->
  exists b, s_isSubsetOf s t = Ok b /\ (b = true <-> forall e, In e (sel s) -> lookup (sel t) e <> None).
Proof. intros Hs Ht. apply (t_subsetOf_ok (vok := vok)); auto. Qed.

(** Sets with the same members. *)
Definition seqv (s t : set) : Prop := forall w, vok w -> lookup (sel s) w <> None <-> lookup (sel t) w <> None.

Lemma eqv_veq l1 l2 : distinct l1 -> distinct l2 -> allok l1 -> allok l2 ->
  eqv veq l1 l2 <-> (forall w, vok w -> lookup l1 w <> None <-> lookup l2 w <> None).
Proof.
  intros Hd1 Hd2 Ho1 Ho2. split.
  - intros [H1 H2] w Hw. split; intros Hn.
    + destruct (lookup l1 w) as [e|] eqn:El; [|congruence]. apply lookup_Some in El as [He Hq].
      destruct (H1 e He) as (f & Hf & Hef).
      rewrite (proj2 (lookup_iff (vok := vok) l2 w f Hd2 Ho2 Hw)); [discriminate|]. split; auto.
      apply (veq_trans f e w); auto. apply veq_sym; auto.
    + destruct (lookup l2 w) as [e|] eqn:El; [|congruence]. apply lookup_Some in El as [He Hq].
      destruct (H2 e He) as (f & Hf & Hef).
      rewrite (proj2 (lookup_iff (vok := vok) l1 w f Hd1 Ho1 Hw)); [discriminate|]. split; auto.
      apply (veq_trans f e w); auto.
  - intros H. split; intros e He.
    + assert (lookup l2 e <> None) as Hn.
      { apply H; auto. rewrite (lookup_In (vok := vok)); auto; discriminate. }
      destruct (lookup l2 e) as [f|] eqn:El; [|congruence]. apply lookup_Some in El as [Hf Hq].
      exists f. split; auto. apply veq_sym; auto.
    + assert (lookup l1 e <> None) as Hn.
      { apply H; auto. rewrite (lookup_In (vok := vok)); auto; discriminate. }
      destruct (lookup l1 e) as [f|] eqn:El; [|congruence]. apply lookup_Some in El as [Hf Hq].
      exists f. split; auto.
Qed.

Lemma s_equal_ok s t : sok s -> sok t -> exists b, s_equal s t = Ok b /\ (b = true <-> seqv s t).
Proof.
  intros Hs Ht. unfold s_equal.
  destruct (t_equal_ok (vok := vok) (s_gauge s) veq (s_tree s) (s_tree t)) as (b & E1 & Hb); auto.
  exists b. split; auto. rewrite Hb. apply eqv_veq; auto using tok_distinct, tok_allok.
Qed.

(** The hash is a fold over the elements that only depends on the members. *)
Lemma fold_lxor_acc {A} (h : A -> N) l a :
  fold_left (fun acc v => N.lxor acc (h v)) l a = N.lxor a (fold_right (fun v acc => N.lxor (h v) acc) 0%N l).
Proof.
  revert a; induction l as [|x l IH]; intros a; simpl.
  - rewrite N.lxor_0_r. reflexivity.
  - rewrite IH. rewrite N.lxor_assoc. reflexivity.
Qed.

Lemma fold_lxor_perm {A} (h : A -> N) l1 l2 : Permutation l1 l2 ->
  fold_right (fun v acc => N.lxor (h v) acc) 0%N l1 = fold_right (fun v acc => N.lxor (h v) acc) 0%N l2.
Proof.
  induction 1 as [|x l l' HP IH|x y l|l l' l'' HP1 IH1 HP2 IH2]; simpl; auto.
  - congruence.
  - rewrite <- !N.lxor_assoc, (N.lxor_comm (h y)). reflexivity.
  - congruence.
Qed.

(** Lists of different elements with the same members have the same members' hashes in some order. *)
Lemma same_members_map {A} (h : T -> A) l1 : forall l2,
  (forall a b, vok a -> vok b -> veq a b = true -> h a = h b) ->
  distinct l1 -> distinct l2 -> allok l1 -> allok l2 ->
  (forall w, vok w -> lookup l1 w <> None <-> lookup l2 w <> None) ->
  Permutation (map h l1) (map h l2).
Proof.
  induction l1 as [|a l1 IH]; intros l2 Hh Hd1 Hd2 Ho1 Ho2 H.
  - destruct l2 as [|b l2]; auto. exfalso. assert (vok b) by (apply Ho2; left; auto).
    apply (proj2 (H b ltac:(auto))); auto. rewrite (lookup_In (vok := vok)); auto; [discriminate|left; auto].
  - assert (Ha : vok a) by (eapply allok_hd; eauto).
    assert (lookup l2 a <> None) as Hn.
    { apply H; auto. rewrite (lookup_In (vok := vok)); auto; [discriminate|left; auto]. }
    destruct (lookup l2 a) as [b|] eqn:Eb; [|congruence]. apply lookup_Some in Eb as [Hb Hq].
    assert (Hbo : vok b) by auto.
    apply in_split in Hb as (l3 & l4 & ->).
    rewrite map_app. simpl.
    rewrite (Hh b a) by auto. apply Permutation_cons_app. rewrite <- map_app.
    apply IH; auto.
    + inversion Hd1; auto.
    + eapply distinct_split; eauto.
    + eapply allok_tl; eauto.
    + eapply allok_split; eauto.
    + intros w Hw. specialize (H w Hw).
      pose proof (lookup_split (vok := vok) [] a l1 a w Hd1 Ho1 Ha Hw (veq_refl a Ha)) as E1. simpl in E1.
      rewrite E1. rewrite (lookup_split (vok := vok) l3 b l4 a w) by auto. unfold rmv.
      destruct (veq a w); [tauto|]. exact H.
Qed.

Definition hashOf (seed : N) (l : list T) : N :=
  N.lxor (wrap 64 (env_uintptr 10538386443025343807%N seed))
         (fold_right (fun v acc => N.lxor (vhash v seed) acc) 0%N l).

Lemma s_hash_ok s seed : sok s -> s_hash s seed = Ok (hashOf seed (sel s)).
Proof.
  intros H. unfold s_hash. rewrite s_elements_ok by auto. cbn [bind]. rewrite fold_lxor_acc. reflexivity.
Qed.

Lemma hashOf_seqv s t seed : sok s -> sok t -> seqv s t -> hashOf seed (sel s) = hashOf seed (sel t).
Proof.
  intros Hs Ht H. unfold hashOf. f_equal.
  assert (HP : Permutation (map (fun v => vhash v seed) (sel s)) (map (fun v => vhash v seed) (sel t))).
  { apply same_members_map; auto using sok_distinct, sok_allok. intros a b Ha Hb Hq. apply vhash_compat; auto. }
  apply (fold_lxor_perm (fun v => v)) in HP.
  assert (Hm : forall l, fold_right (fun v acc => N.lxor v acc) 0%N (map (fun v => vhash v seed) l) =
                         fold_right (fun v acc => N.lxor (vhash v seed) acc) 0%N l).
  { induction l as [|x l IH]; simpl; congruence. }
  rewrite !Hm in HP. exact HP.
Qed.

Lemma lxor_lt w a b : (a < 2 ^ w)%N -> (b < 2 ^ w)%N -> (N.lxor a b < 2 ^ w)%N.
Proof.
  intros Ha Hb. apply bits_lt. intros i Hi.
  rewrite N.lxor_spec, (@testbit_above w a), (@testbit_above w b); auto.
Qed.

Lemma hashOf_lt seed l : allok l -> (hashOf seed l < 2 ^ 64)%N.
Proof.
  intros H. unfold hashOf. apply lxor_lt; [apply wrap_lt|].
  induction l as [|x l IH]; simpl fold_right; [reflexivity|].
  apply lxor_lt; [apply vhash_range; apply H; left; auto|]. apply IH. eapply allok_tl; eauto.
Qed.

(** Valid sets are lawful elements. *)
#[global] Instance setKeyOk : KeyOk (@setKey E T K) sok.
Proof.
  assert (HQ : forall a b, sok a -> sok b -> @veq _ setKey a b = true <-> seqv a b).
  { intros a b Ha Hb. destruct (s_equal_ok a b Ha Hb) as (x & E1 & Hx). cbn. rewrite E1. auto. }
  constructor.
  - intros a Ha. apply HQ; auto. intros w Hw. tauto.
  - intros a b Ha Hb. rewrite !HQ by auto. intros H w Hw. rewrite (H w Hw). tauto.
  - intros a b c Ha Hb Hc. rewrite !HQ by auto. intros H1 H2 w Hw. rewrite (H1 w Hw). auto.
  - intros a b seed Ha Hb. rewrite HQ by auto. intros H. cbn. rewrite !s_hash_ok by auto.
    apply hashOf_seqv; auto.
  - intros a seed Ha. cbn. rewrite s_hash_ok by auto. apply hashOf_lt. apply sok_allok; auto.
Qed.

Lemma s_where_ok s pred : sok s ->
  exists r, s_where s pred = Ok r /\ sok r /\ sel r = filter pred (sel s).
Proof.
  intros H. unfold s_where.
  destruct (t_where_ok (vok := vok) (s_gauge s) pred (s_tree s)) as (r & -> & Hr & He); auto.
  exists (mkSet r). auto.
Qed.

(** ** Builders *)

Definition bok (b : setBuilder T) : Prop := tok (sb_tree b).
Definition bel (b : setBuilder T) : list T := tel (sb_tree b).

Lemma sb_add_ok b v : bok b -> vok v ->
  exists r, sb_add b v = Ok r /\ bok r /\
    (forall w, vok w -> lookup (bel r) w = if veq v w then Some v else lookup (bel b) w) /\
    sb_count r = (sb_count b + if isSome (lookup (bel b) v) then 0 else 1)%Z.
Proof.
  intros H Hv. unfold sb_add. destruct (b_add_ok (sb_tree b) v H Hv) as (r & -> & Hr & Hl & Hc).
  exists (mkSB r). auto.
Qed.

Lemma sb_remove_ok b v : bok b -> vok v ->
  exists r, sb_remove b v = Ok r /\ bok r /\
    (forall w, vok w -> lookup (bel r) w = if veq v w then None else lookup (bel b) w) /\
    sb_count r = (sb_count b - if isSome (lookup (bel b) v) then 1 else 0)%Z.
Proof.
  intros H Hv. unfold sb_remove. destruct (b_remove_ok (sb_tree b) v H Hv) as (r & -> & Hr & Hl & Hc).
  exists (mkSB r). auto.
Qed.

Lemma sb_has_ok b v : bok b -> vok v -> sb_has b v = Ok (isSome (lookup (bel b) v)).
Proof. intros H Hv. unfold sb_has, b_get. rewrite (t_get_ok (vok := vok)); auto. Qed.

Lemma sb_addMap_ok {A} (f : A -> T) vs : forall b, bok b -> (forall v, In v vs -> vok (f v)) ->
  exists r, foldM (fun b v => sb_add b (f v)) b vs = Ok r /\ bok r /\
    (forall w, vok w -> lookup (bel r) w =
       match findLast (map f vs) w with Some e => Some e | None => lookup (bel b) w end).
Proof.
  intros b Hb Hvs. destruct (b_addAll_ok (vok := vok) f vs (sb_tree b) Hb Hvs) as (r & E1 & Hr & Hl).
  exists (mkSB r). split; [|split; auto].
  assert (Hg : forall l b, foldM (fun b v => sb_add b (f v)) b l =
             rmap mkSB (foldM (fun b v => b_add b (f v)) (sb_tree b) l)).
  { induction l as [|x l IH]; intros b0; simpl; [destruct b0; auto|].
    unfold sb_add at 1. destruct (b_add (sb_tree b0) (f x)); simpl; auto. rewrite IH. reflexivity. }
  rewrite Hg, E1. reflexivity.
Qed.

Lemma sb_addAll_ok vs b : bok b -> allok vs ->
  exists r, sb_addAll b vs = Ok r /\ bok r /\
    (forall w, vok w -> lookup (bel r) w =
       match findLast vs w with Some e => Some e | None => lookup (bel b) w end).
Proof.
  intros Hb Hvs. destruct (sb_addMap_ok (fun v => v) vs b Hb Hvs) as (r & E1 & Hr & Hl).
  exists r. rewrite map_id in Hl. split; auto.
Qed.

Lemma bok_empty : bok (mkSB emptyTree).
Proof. apply tok_empty. Qed.

Lemma s_new_ok vs : allok vs ->
  exists r, s_new vs = Ok r /\ sok r /\ (forall w, vok w -> lookup (sel r) w = findLast vs w).
Proof.
  intros Hvs. unfold s_new.
  destruct (sb_addAll_ok vs (mkSB emptyTree) bok_empty Hvs) as (r & E1 & Hr & Hl).
  unfold newSetBuilder. rewrite E1. cbn [bind]. eexists; split; [reflexivity|]. split; auto.
  intros w Hw. rewrite Hl by auto. destruct (findLast vs w); auto.
Qed.

(** ** Any, AnyN *)

Lemma range_iok s : sok s -> iok (vok := vok) 0 (s_range s) /\ remaining (s_range s) = sel s.
Proof.
  intros [H _]. unfold s_range, t_iterator, sel, tel. destruct (t_root (s_tree s)) as [n|].
  - split; [apply iok_iterator; auto|]. apply remaining_iterator.
  - split; [constructor|reflexivity].
Qed.

Lemma i_next_ok it : iok (vok := vok) 0 it ->
  exists b it', i_next it = Ok (b, it') /\ iok (vok := vok) 0 it' /\
    match remaining it with
    | [] => b = false /\ remaining it' = []
    | x :: xs => b = true /\ remaining it' = xs /\ i_value it' = Ok x
    end.
Proof. intros H. apply inext_spec; auto. unfold treeFuel; lia. Qed.

Lemma s_any_ok s : sok s -> s_any s = match sel s with [] => Panic | x :: _ => Ok x end.
Proof.
  intros H. unfold s_any. destruct (range_iok s H) as [Hi Hr].
  destruct (i_next_ok _ Hi) as (b & it' & -> & _ & Hn). cbn [bind]. rewrite Hr in Hn.
  destruct (sel s) as [|x xs]; destruct Hn as [-> Hn]; auto. destruct Hn; auto.
Qed.

Lemma anyN_loop_ok fuel : forall it n b, iok (vok := vok) 0 it -> bok b -> length (remaining it) < fuel ->
  allok (remaining it) ->
  exists r, anyN_loop fuel it n b = Ok r /\ sb_addAll b (firstn (Z.to_nat n) (remaining it)) = Ok r.
Proof.
  induction fuel as [|fuel IH]; intros it n b Hi Hb Hf Ho; [lia|]. cbn [anyN_loop].
  destruct (i_next_ok it Hi) as (ok & it' & -> & Hi' & Hn). cbn [bind].
  destruct (remaining it) as [|x xs].
  - destruct Hn as [-> Hn]. simpl. exists b. rewrite firstn_nil. auto.
  - destruct Hn as (-> & Hn & Hv). cbn [andb]. destruct (Z.ltb_spec 0 n) as [Hp|Hp].
    + rewrite Hv. cbn [bind]. destruct (sb_add_ok b x) as (b' & E0 & Hb' & _); auto.
      { apply Ho; left; auto. }
      rewrite E0.
      cbn [bind]. destruct (IH it' (n - 1)%Z b') as (r & E1 & E2); auto.
      { rewrite Hn. simpl in Hf. lia. }
      { rewrite Hn. eapply allok_tl; eauto. }
      exists r. split; auto. rewrite Hn in E2.
      replace (Z.to_nat n) with (S (Z.to_nat (n - 1))) by lia. cbn [firstn]. unfold sb_addAll in *. cbn [foldM].
      rewrite E0. exact E2.
    + exists b. replace (Z.to_nat n) with 0 by lia. auto.
Qed.

Lemma findLast_distinct l w : distinct l -> allok l -> vok w -> findLast l w = lookup l w.
Proof.
  intros Hd Ho Hw. destruct (findLast l w) as [e|] eqn:Ef.
  - apply findLast_Some in Ef. symmetry. apply (lookup_iff (vok := vok)); auto.
  - symmetry. apply lookup_None. apply findLast_None. auto.
Qed.

Lemma s_anyN_ok s n : sok s ->
  (s_count s < n)%Z /\ s_anyN s n = Ok s \/
  (n <= s_count s)%Z /\ exists r, s_anyN s n = Ok r /\ sok r /\
    (forall w, vok w -> lookup (sel r) w = lookup (firstn (Z.to_nat n) (sel s)) w).
Proof.
  intros H. unfold s_anyN. destruct (Z.ltb_spec (s_count s) n) as [Hc|Hc]; auto. right. split; auto.
  destruct (range_iok s H) as [Hi Hr].
  destruct (anyN_loop_ok (S (length (elemso (t_root (s_tree s))))) (s_range s) n (newSetBuilder n))
    as (b & E1 & E2); auto using bok_empty.
  { rewrite Hr. unfold sel, tel. lia. }
  { rewrite Hr. apply sok_allok; auto. }
  rewrite E1. cbn [bind]. rewrite Hr in E2.
  assert (Ho : allok (firstn (Z.to_nat n) (sel s))).
  { intros e He. apply (sok_allok s H). rewrite <- (firstn_skipn (Z.to_nat n)). apply in_or_app; auto. }
  destruct (sb_addAll_ok _ (newSetBuilder n) bok_empty Ho) as (b' & E3 & Hb & Hl).
  rewrite E2 in E3. injection E3 as <-. eexists; split; [reflexivity|]. split; auto.
  intros w Hw. unfold sel at 1. cbn. fold (bel b). rewrite Hl by auto.
  rewrite findLast_distinct; auto.
  - destruct (lookup _ w); auto.
  - pose proof (sok_distinct s H) as Hd. rewrite <- (firstn_skipn (Z.to_nat n)) in Hd.
    apply distinct_app in Hd. tauto.
Qed.

(** ** Sets with the same members have the same number of elements. *)

Lemma seqv_count s t : sok s -> sok t -> seqv s t -> s_count s = s_count t.
Proof.
  intros Hs Ht H. rewrite !s_count_ok by auto. f_equal.
  apply (distinct_length_eq (vok := vok)); auto using sok_distinct, sok_allok.
  intros w Hw. specialize (H w Hw).
  destruct (lookup (sel s) w), (lookup (sel t) w); split; intros; auto; try discriminate; exfalso;
    [apply (proj1 H)|apply (proj2 H)]; auto; discriminate.
Qed.

(** ** N-ary operations *)

Lemma s_intersectionN_ok ss : forall s, sok s -> (forall t, In t ss -> sok t) ->
  exists r, foldM s_intersection s ss = Ok r /\ sok r /\
    (forall w, vok w -> lookup (sel r) w <> None <->
       lookup (sel s) w <> None /\ forall t, In t ss -> lookup (sel t) w <> None).
Proof.
  induction ss as [|t ss IH]; intros s Hs Hss; cbn [foldM].
  - exists s. split; auto. split; auto. intros w Hw. split; [intros Hn; split; auto; intros t []|tauto].
  - destruct (s_intersection_ok s t) as (r1 & -> & Hr1 & Hl1); auto. { apply Hss; left; auto. }
    cbn [bind]. destruct (IH r1) as (r & -> & Hr & Hl); auto. { intros u Hu. apply Hss; right; auto. }
    exists r. split; auto. split; auto. intros w Hw. rewrite (Hl w Hw). specialize (Hl1 w Hw).
    unfold isect in Hl1.
    destruct (lookup (sel s) w) as [a|] eqn:Ea, (lookup (sel t) w) as [b|] eqn:Eb.
    + split.
      * intros [Hn Ha]. split; [discriminate|]. intros u [<-|Hu]; auto. rewrite Eb; discriminate.
      * intros [_ Ha]. split; [|intros u Hu; apply Ha; right; auto]. destruct Hl1 as [-> | ->]; discriminate.
    + rewrite Hl1. split; [tauto|]. intros [_ Ha]. exfalso. apply (Ha t); auto. left; auto.
    + rewrite Hl1. tauto.
    + rewrite Hl1. tauto.
Qed.

(** ** Reduce *)

Lemma s_reduce_ok s r : sok s -> s_reduce s r = Ok (option_map (red r) (t_root (s_tree s))).
Proof. intros H. unfold s_reduce. apply (t_reduce_ok (vok := vok)); auto. Qed.

Lemma s_reduce_assoc s r : sok s -> assocRed r ->
  s_reduce s r = Ok (match sel s with [] => None | l => Some (r l) end).
Proof.
  intros H Hr. rewrite s_reduce_ok by auto. unfold sel, tel. pose proof H as [Hw _].
  destruct (t_root (s_tree s)) as [n|] eqn:Et; simpl; auto.
  assert (Hn : wf vok 0 n) by (apply Hw; auto).
  rewrite (red_assoc r 0 n) by auto. pose proof (wf_nonnil _ _ Hn). destruct (elems n); congruence.
Qed.

Lemma s_reduce_ext s r r' : sok s -> (forall l, l <> [] -> r l = r' l) -> s_reduce s r = s_reduce s r'.
Proof.
  intros H Hr. rewrite !s_reduce_ok by auto. pose proof H as [Hw _].
  destruct (t_root (s_tree s)) as [n|] eqn:Et; simpl; auto.
  rewrite (red_ext (vok := vok) r r' 0 n); auto.
Qed.

End SetFacts.

Arguments sok {E T K} vok _.
Arguments seqv {T K} vok _ _.

Section SetMapFacts.
Local Opaque maxTreeDepth fanout fb.
Context {E : Env} {HE : EnvOk E}.
Context {T : Type} {K : Key T} {vok : T -> Prop} {KO : KeyOk K vok}.
Context {U : Type} {KU : Key U} {uok : U -> Prop} {KUO : KeyOk KU uok}.

Lemma s_map_ok s (f : T -> U) : sok vok s -> (forall e, In e (sel s) -> uok (f e)) ->
  exists r, s_map s f = Ok r /\ sok uok r /\
    (forall w, uok w -> lookup (sel r) w = findLast (map f (sel s)) w).
Proof.
  intros H Hf. unfold s_map.
  destruct (t_map_ok (vok := vok) (uok := uok) f (s_tree s)) as (r & -> & Hr & Hl); auto.
  exists (mkSet r). auto.
Qed.

Lemma s_asAny_ok s (f : T -> U) : sok vok s -> (forall e, In e (sel s) -> uok (f e)) ->
  exists r, s_asAny f s = Ok r /\ sok uok r /\
    (forall w, uok w -> lookup (sel r) w = findLast (map f (sel s)) w).
Proof.
  intros H Hf. unfold s_asAny. rewrite (s_elements_ok (vok := vok)) by auto. cbn [bind].
  destruct (sb_addMap_ok (vok := uok) f (sel s) (mkSB emptyTree)) as (r & -> & Hr & Hl); auto using bok_empty.
  cbn [bind]. eexists; split; [reflexivity|]. split; auto. intros w Hw.
  unfold sel at 1. cbn. fold (bel r). rewrite Hl by auto. destruct (findLast _ w); auto.
Qed.

Lemma s_as_ok s (conv : T -> option U) : sok vok s -> (forall e u, In e (sel s) -> conv e = Some u -> uok u) ->
  (exists e, In e (sel s) /\ conv e = None) /\ s_as conv s = Panic \/
  (forall e, In e (sel s) -> conv e <> None) /\
  exists r, s_as conv s = Ok r /\ sok uok r /\
    (forall w, uok w -> lookup (sel r) w <> None <->
       exists e u, In e (sel s) /\ conv e = Some u /\ veq u w = true).
Proof.
  intros H Hf. unfold s_as. rewrite (s_elements_ok (vok := vok)) by auto. cbn [bind].
  assert (HG : forall l (b : setBuilder U), bok (vok := uok) b -> (forall e u, In e l -> conv e = Some u -> uok u) ->
    (exists e, In e l /\ conv e = None) /\
      foldM (fun b v => match conv v with Some u => sb_add b u | None => Panic end) b l = Panic \/
    (forall e, In e l -> conv e <> None) /\
    exists r, foldM (fun b v => match conv v with Some u => sb_add b u | None => Panic end) b l = Ok r /\
      bok (vok := uok) r /\
      (forall w, uok w -> lookup (bel r) w <> None <->
         lookup (bel b) w <> None \/ exists e u, In e l /\ conv e = Some u /\ veq u w = true)).
  { induction l as [|x l IH]; intros b Hb Hl; cbn [foldM].
    - right. split; [intros e []|]. exists b. split; auto. split; auto. intros w Hw. split; auto.
      intros [Hn|(e & u & [] & _)]; auto.
    - destruct (conv x) as [u|] eqn:Ex.
      2:{ left. split; auto. exists x. split; auto. left; auto. }
      destruct (sb_add_ok (vok := uok) b u) as (b' & -> & Hb' & Hl' & _); auto.
      { apply (Hl x); auto. left; auto. }
      cbn [bind]. destruct (IH b' Hb') as [[(e & He & Hn) E1]|(Hall & r & E1 & Hr & Hlr)].
      + intros e v He. apply Hl. right; auto.
      + left. split; auto. exists e. split; auto. right; auto.
      + right. split. { intros e [<-|He]; auto. congruence. }
        exists r. split; auto. split; auto. intros w Hw. rewrite (Hlr w Hw), (Hl' w Hw). split.
        * intros [Hn|(e & v & He & Hc & Hq)].
          -- destruct (veq u w) eqn:Eq; auto. right. exists x, u. split; auto. left; auto.
          -- right. exists e, v. split; auto. right; auto.
        * intros [Hn|(e & v & [<-|He] & Hc & Hq)].
          -- left. destruct (veq u w); auto. discriminate.
          -- left. rewrite Ex in Hc. injection Hc as <-. rewrite Hq. discriminate.
          -- right. exists e, v. auto. }
  destruct (HG (sel s) (mkSB emptyTree)) as [[He E1]|(Hall & r & E1 & Hr & Hl)]; auto using bok_empty.
  - left. split; auto. rewrite E1. reflexivity.
  - right. split; auto. rewrite E1. cbn [bind]. eexists; split; [reflexivity|]. split; auto.
    intros w Hw. unfold sel at 1. cbn. fold (bel r). rewrite (Hl w Hw). split; auto.
    intros [Hn|Hn]; auto. exfalso. apply Hn. reflexivity.
Qed.
End SetMapFacts.
