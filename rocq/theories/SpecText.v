(** * SpecText: lemmas behind the properties of the textual forms (C44-C48). *)
From Coq Require Import String Ascii.
From Verif Require Import Base Bits Env EnvFacts Node NodeWf NodeAdd Iter Tree TreeFacts SetApi SetFacts MapApi MapFacts IntSet
  IntFacts ExtraFacts BitFacts Reach Spec SpecSet SpecMap SpecInt Text.
Local Open Scope string_scope.

(** ** Vocabulary *)

(** Every text of the list, preceded by [sep]. *)
Fixpoint after (sep : string) (l : list string) : string :=
  match l with [] => "" | x :: l' => sep ++ x ++ after sep l' end.
(** The texts of the list, separated by [sep]. *)
Definition joinWith (sep : string) (l : list string) : string :=
  match l with [] => "" | x :: l' => x ++ after sep l' end.

(** The contents of a set whose elements are rendered as [l] when at most [width] of them are shown. *)
Definition shown (width : option Z) (l : list string) : string :=
  match width with
  | Some w =>
      if (Z.of_nat (List.length l) <=? w)%Z then joinWith ", " l
      else joinWith ", " (firstn (Z.to_nat w) l) ++ ", ...(+" ++ decimal (Z.of_nat (List.length l) - w) ++ ")..."
  | None => joinWith ", " l
  end.
Definition widthOk (width : option Z) : Prop := match width with Some w => (0 <= w)%Z | None => True end.

(** The marks the debugging format puts around the elements. *)
Definition marks : list string := ["‹"; "›"; "«"; "»"; "("; ")"; ","; " "; "⁅"; "⁆"]%list ++ branchStringIndices.
(** The text consists of the texts of the list, in this order, and of marks. *)
Inductive Woven : list string -> string -> Prop :=
| wv_end : Woven [] ""
| wv_mark m l t : In m marks -> Woven l t -> Woven l (m ++ t)
| wv_item x l t : Woven l t -> Woven (x :: l) (x ++ t).

(** No comma in the text. *)
Fixpoint commaFree (s : string) : Prop :=
  match s with "" => True | String c s' => c <> ","%char /\ commaFree s' end.

(** ** Strings *)

Lemma app_assoc_s a b c : (a ++ b) ++ c = a ++ b ++ c.
Proof. induction a; simpl; congruence. Qed.
Lemma nil_app_s a : "" ++ a = a.
Proof. reflexivity. Qed.
Lemma app_nil_s a : a ++ "" = a.
Proof. induction a; simpl; congruence. Qed.

Lemma Woven_app l1 t1 : Woven l1 t1 -> forall l2 t2, Woven l2 t2 -> Woven (l1 ++ l2) (t1 ++ t2).
Proof.
  induction 1; intros l2 t2 H2; cbn [List.app].
  - exact H2.
  - rewrite app_assoc_s. apply wv_mark; auto.
  - rewrite app_assoc_s. apply wv_item; auto.
Qed.
Lemma Woven_mark m : In m marks -> Woven [] m.
Proof. intros H. rewrite <- (app_nil_s m). apply wv_mark; auto. constructor. Qed.
Lemma Woven_item x : Woven [x] x.
Proof. rewrite <- (app_nil_s x) at 2. apply wv_item. constructor. Qed.
Lemma Woven_before m l t : In m marks -> Woven l t -> Woven l (m ++ t).
Proof. apply wv_mark. Qed.
Lemma Woven_after m l t : In m marks -> Woven l t -> Woven l (t ++ m).
Proof. intros H Ht. rewrite <- (app_nil_r l). apply Woven_app; auto using Woven_mark. Qed.
Lemma Woven_spaces n : Woven [] (spaces n).
Proof. induction n as [|n IH]; cbn [spaces]; [constructor|]. apply wv_mark; auto. unfold marks. simpl. tauto. Qed.
Lemma Woven_pad f n : Woven [] (padFormat f n).
Proof. unfold padFormat. destruct (fs_width f); [|constructor]. destruct (_ >? 0)%Z; [apply Woven_spaces|constructor]. Qed.

Ltac mark := unfold marks, branchStringIndices; simpl; tauto.

Section TreeSpec.
Local Opaque maxTreeDepth fanout fb.
Context {E : Env} {HE : EnvOk E} {T : Type} {K : Key T} {vok : T -> Prop} {KO : KeyOk K vok} {ZT : Zero T} {F : Fmt T}.

Lemma twigText_woven f l : forall i, Woven (map (fmt_f f) l) (twigText f i l).
Proof.
  induction l as [|e l IH]; intros i; cbn [twigText map]; [constructor|].
  destruct (0 <? i)%nat.
  - apply wv_mark; [mark|]. apply wv_item. apply IH.
  - rewrite nil_app_s. apply wv_item. apply IH.
Qed.

Lemma appendTo_full d n : wf vok d n -> forall dest cap, List.length dest = cap -> appendTo cap n dest = None.
Proof.
  intros Hn dest cap Hc. destruct (appendTo cap n dest) eqn:Ea; auto. exfalso.
  rewrite (appendTo_spec cap n dest) in Ea by lia. apply wf_nonempty in Hn.
  destruct (Nat.ltb_spec cap (List.length dest + List.length (elems n))); [discriminate|lia].
Qed.

Lemma n_format_woven d n : wf vok d n -> forall f, exists t, n_format n f = Ok t /\ Woven (map (fmt_f f) (elems n)) t.
Proof.
  induction 1 as [d a Hd Ha|d a b Hd Ha Hb Hab|d l Hd Hl Ho Hdi|d m data Hd Hlen Hm Hc IH Hp Hel]; intros f.
  - eexists. split; [reflexivity|]. apply wv_mark; [mark|]. apply Woven_after; [mark|]. apply Woven_item.
  - eexists. split; [reflexivity|]. apply wv_mark; [mark|]. apply wv_item. apply wv_mark; [mark|].
    apply Woven_after; [mark|]. apply Woven_item.
  - eexists. split; [reflexivity|]. apply wv_mark; [mark|]. apply Woven_after; [mark|]. apply twigText_woven.
  - assert (Hw : wf vok d (Branch m data)) by (constructor; auto).
    cbn [n_format]. rewrite (appendTo_full d (Branch m data) Hw) by (rewrite repeat_length; auto). cbv zeta.
    match goal with |- context [?g data 0%nat true ?z] => set (go := g); set (t0 := z) end.
    assert (Hgo : forall ds i first total, (i + List.length ds = fanout)%nat ->
      (forall j c, nth j ds None = Some c -> forall f, exists t, n_format c f = Ok t /\ Woven (map (fmt_f f) (elems c)) t) ->
      exists t tot, go ds i first total = Ok (t, tot) /\ Woven (map (fmt_f f) (flat_map elemso ds)) t).
    { induction ds as [|[c|] ds IHd]; intros i first total Hi Hds; cbn [flat_map].
      - exists "", total. split; [reflexivity|constructor].
      - cbn [List.length] in Hi. assert (exists index, nth_error branchStringIndices i = Some index) as (index & Ei).
        { destruct (nth_error branchStringIndices i) eqn:Ei; eauto. exfalso. apply nth_error_None in Ei.
          pose proof fanout_le. change (List.length branchStringIndices) with 16%nat in Ei. lia. }
        destruct (Hds 0%nat c eq_refl f) as (t & Et & Wt).
        destruct (IHd (S i) false (total + bytes ((if first then "" else " ") ++ index))%Z) as (rest & tot & Er & Wr); [lia| |].
        { intros j c' Hj. exact (Hds (S j) c' Hj). }
        exists (((if first then "" else " ") ++ index) ++ t ++ rest), tot. split.
        + unfold go. cbn fix beta iota. fold go. rewrite Ei. rewrite Et. cbn [bind]. cbv zeta. rewrite Er. reflexivity.
        + rewrite map_app. assert (Hm1 : In index marks) by (apply in_or_app; right; eapply nth_error_In; eauto).
          rewrite app_assoc_s. destruct first; [rewrite nil_app_s|apply wv_mark; [mark|]];
            (apply wv_mark; [exact Hm1|]; apply Woven_app; auto).
      - cbn [List.length] in Hi. destruct (IHd (S i) first total) as (rest & tot & Er & Wr); [lia| |].
        { intros j c' Hj. exact (Hds (S j) c' Hj). }
        exists rest, tot. split; [exact Er|]. exact Wr. }
    destruct (Hgo data 0%nat true t0) as (t & tot & Et & Wt); [simpl; auto|intros j c Hj; apply (IH j c Hj)|].
    rewrite Et. cbn [bind]. eexists. split; [reflexivity|]. rewrite elems_branch.
    rewrite app_nil_s. apply wv_mark; [mark|]. rewrite <- (app_nil_r (map _ _)). apply Woven_app; auto.
    apply wv_mark; [mark|]. apply Woven_pad.
Qed.

End TreeSpec.

(** ** Sets *)

Section SetSpecs.
Local Opaque maxTreeDepth fanout fb.
Context {E : Env} {HE : EnvOk E} {T : Type} {K : Key T} {vok : T -> Prop} {KO : KeyOk K vok} {ZT : Zero T} {F : Fmt T}.
Implicit Types (s t : set T).

Definition part (n : Z) (l : list string) : string := if (n >? 0)%Z then after ", " l else joinWith ", " l.

Lemma part_cons n x l : (0 <= n)%Z -> part n (x :: l) = (if (n >? 0)%Z then ", " else "") ++ x ++ part (n + 1) l.
Proof.
  intros H. unfold part. replace (n + 1 >? 0)%Z with true by (symmetry; rewrite Z.gtb_lt; lia).
  destruct (n >? 0)%Z; reflexivity.
Qed.

Definition restText (width : option Z) (count n : Z) (l : list string) : string :=
  match width with
  | None => part n l
  | Some w =>
      if (Z.of_nat (List.length l) <=? w - n)%Z then part n l
      else part n (firstn (Z.to_nat (w - n)) l) ++ ", ...(+" ++ decimal (count - w) ++ ")..."
  end.

Lemma setText_ok width count fuel : forall it n, iok (vok := vok) 0 it -> (List.length (remaining it) < fuel)%nat ->
  (0 <= n)%Z -> match width with Some w => (n <= w)%Z | None => True end ->
  setText fuel width count it n = Ok (restText width count n (map fmt_v (remaining it))).
Proof.
  induction fuel as [|fuel IH]; intros it n Hi Hf Hn Hw; [lia|]. cbn [setText].
  destruct (i_next_ok (vok := vok) it Hi) as (b & it' & -> & Hi' & Hr). cbn [bind].
  destruct (remaining it) as [|x xs] eqn:Er.
  - destruct Hr as [-> _]. unfold restText, part. cbn [map List.length Z.of_nat].
    destruct width as [w|]; [destruct (Z.leb_spec 0 (w - n)); [|lia]|]; destruct (n >? 0)%Z; reflexivity.
  - destruct Hr as (-> & Hr & Hv). cbn [List.length] in Hf. unfold restText. cbn [map]. destruct width as [w|].
    + destruct (Z.eqb_spec n w) as [->|Hne].
      * rewrite Z.sub_diag. cbn [List.length]. destruct (Z.leb_spec (Z.of_nat (S (List.length (map fmt_v xs)))) 0); [lia|].
        cbn [Z.to_nat firstn]. unfold part. destruct (w >? 0)%Z; reflexivity.
      * rewrite Hv. cbn [bind]. rewrite (IH it' (n + 1)%Z) by (rewrite ?Hr; auto; lia). cbn [bind]. rewrite Hr. f_equal.
        unfold restText. cbn [List.length].
        destruct (Z.leb_spec (Z.of_nat (List.length (map fmt_v xs))) (w - (n + 1)));
          destruct (Z.leb_spec (Z.of_nat (S (List.length (map fmt_v xs)))) (w - n)); try lia.
        -- rewrite part_cons by lia. reflexivity.
        -- replace (Z.to_nat (w - n)) with (S (Z.to_nat (w - (n + 1)))) by lia. cbn [firstn]. rewrite part_cons by lia.
           rewrite !app_assoc_s. reflexivity.
    + rewrite Hv. cbn [bind]. rewrite (IH it' (n + 1)%Z) by (rewrite ?Hr; auto; lia). cbn [bind]. rewrite Hr. f_equal.
      unfold restText. rewrite part_cons by lia. reflexivity.
Qed.

Lemma s_format_ok s f : sok vok s -> debugs f = false -> widthOk (fs_width f) ->
  s_format s f = Ok ("{" ++ shown (fs_width f) (map fmt_v (sel s)) ++ "}").
Proof.
  intros Hs Hd Hw. unfold s_format. rewrite Hd. destruct (range_iok (vok := vok) s Hs) as [Hi Hr].
  rewrite setText_ok; auto; [|rewrite Hr; unfold sel, tel; lia|lia]. cbn [bind].
  rewrite (s_count_ok (vok := vok)) by auto. rewrite Hr. f_equal. f_equal. f_equal. unfold restText, shown.
  destruct (fs_width f) as [w|]; [|reflexivity]. rewrite Z.sub_0_r, map_length. reflexivity.
Qed.

Lemma s_debug_ok s f : sok vok s -> debugs f = true -> s_isEmpty s = false ->
  exists t : string, s_format s f = Ok ("S" ++ t) /\ Woven (map (fmt_f f) (sel s)) t.
Proof.
  intros Hs Hd He. unfold s_format, t_format, sel, tel. rewrite Hd. destruct Hs as [Hw Hc].
  unfold s_isEmpty in He. unfold tel in Hc. destruct (t_root (s_tree s)) as [n|]; cbn [elemso] in *.
  - destruct (n_format_woven (vok := vok) 0 n (Hw n eq_refl) f) as (t & -> & Wt). exists t. auto.
  - simpl in Hc. rewrite Hc in He. discriminate.
Qed.

(** *** C44 *)

Lemma c44_format s f : SetReach vok s -> debugs f = false -> widthOk (fs_width f) ->
  exists l, Yields (s_range s) l /\ s_elements s = Ok l /\ Lists vok l (Has s) /\
    s_format s f = Ok ("{" ++ shown (fs_width f) (map fmt_v l) ++ "}").
Proof.
  intros Hs Hd Hw. destruct (c04_range s Hs) as (l & HY & El & HL). exists l. split; auto. split; auto. split; auto.
  apply sreach_ok in Hs. rewrite s_format_ok by auto. rewrite (s_elements_ok (vok := vok)) in El by auto. congruence.
Qed.

Lemma c44_string s : SetReach vok s ->
  exists l, Yields (s_range s) l /\ s_elements s = Ok l /\ Lists vok l (Has s) /\
    s_string s = Ok ("{" ++ joinWith ", " (map fmt_v l) ++ "}").
Proof. intros Hs. apply (c44_format s fs_s Hs eq_refl Logic.I). Qed.

Lemma c44_debug s f : SetReach vok s -> debugs f = true -> s_isEmpty s = false ->
  exists l (text : string), s_elements s = Ok l /\ s_format s f = Ok ("S" ++ text) /\ Woven (map (fmt_f f) l) text.
Proof.
  intros Hs Hd He. apply sreach_ok in Hs. destruct (s_debug_ok s f Hs Hd He) as (t & Et & Wt).
  exists (sel s), t. split; auto. apply (s_elements_ok (vok := vok)); auto.
Qed.

Lemma c44_builder (b : setBuilder T) f : SBReach vok b -> debugs f = false -> widthOk (fs_width f) ->
  exists l, Lists vok l (fun v => sb_has b v = Ok true) /\ sb_count b = Z.of_nat (List.length l) /\
    sb_format b f = Ok ("{" ++ shown (fs_width f) (map fmt_v l) ++ "}").
Proof.
  intros Hb Hd Hw. apply sbreach_ok in Hb. assert (Hs : sok vok (mkSet (sb_tree b))) by exact Hb.
  exists (sel (mkSet (sb_tree b))). split; [|split].
  - apply Lists_lookup; [apply sok_allok; auto|eapply sok_distinct; eauto|].
    intros w Hw'. rewrite <- has_lookup by auto. unfold Has, s_has, sb_has. tauto.
  - exact (s_count_ok (vok := vok) (mkSet (sb_tree b)) Hs).
  - unfold sb_format. apply s_format_ok; auto.
Qed.

(** *** C46 *)

Lemma c46_set s : SetReach vok s -> exists l, s_marshal s = Ok l /\ Lists vok l (Has s).
Proof. intros Hs. destruct (c04_range s Hs) as (l & _ & El & HL). exists l. auto. Qed.

(** *** C47 *)

Lemma c47_same s t : SetReach vok s -> SetReach vok t -> s_equal s t = Ok true ->
  (forall a b, vok a -> vok b -> veq a b = true -> fmt_v a = fmt_v b) ->
  exists ls lt, s_string s = Ok ("{" ++ joinWith ", " ls ++ "}") /\ s_string t = Ok ("{" ++ joinWith ", " lt ++ "}") /\
    Permutation ls lt.
Proof.
  intros Hs Ht Hq Hf. destruct (c05_equal s t Hs Ht) as (b & Eb & HB).
  assert (Hm : SameMembers vok s t) by (apply HB; congruence). apply sreach_ok in Hs, Ht.
  exists (map fmt_v (sel s)), (map fmt_v (sel t)). split; [apply (s_format_ok s fs_s Hs eq_refl Logic.I)|].
  split; [apply (s_format_ok t fs_s Ht eq_refl Logic.I)|]. apply (same_members_map (vok := vok)); auto.
  1, 2: eapply sok_distinct; eauto. 1, 2: apply sok_allok; auto.
  intros w Hw. rewrite <- !has_lookup by auto. apply Hm; auto.
Qed.

Lemma comma_split x : forall y r q, commaFree x -> commaFree y -> x ++ ", " ++ r = y ++ ", " ++ q -> x = y /\ r = q.
Proof.
  induction x as [|c x IH]; intros [|d y] r q Hx Hy H; simpl in *.
  - injection H as ->. auto.
  - injection H as Hc _. exfalso. apply (proj1 Hy). auto.
  - injection H as Hc _. exfalso. apply (proj1 Hx). auto.
  - injection H as -> H. destruct (IH y r q) as [-> ->]; tauto.
Qed.
Lemma comma_none x : forall y r, commaFree x -> x = y ++ ", " ++ r -> False.
Proof.
  induction x as [|c x IH]; intros [|d y] r Hx H; simpl in *; try discriminate.
  - injection H as -> _. tauto.
  - injection H as -> H. apply (IH y r); tauto.
Qed.
Lemma after_cons x l : after ", " (x :: l) = ", " ++ joinWith ", " (x :: l).
Proof. reflexivity. Qed.
Lemma join_inj l : forall k, (forall x, In x l \/ In x k -> commaFree x /\ x <> "") ->
  joinWith ", " l = joinWith ", " k -> l = k.
Proof.
  induction l as [|x l IH]; intros [|y k] Hc H.
  - auto.
  - exfalso. destruct (Hc y) as [_ Hy]; [right; left; auto|]. simpl in H. destruct y; simpl in H; congruence.
  - exfalso. destruct (Hc x) as [_ Hx]; [left; left; auto|]. simpl in H. destruct x; simpl in H; congruence.
  - destruct (Hc x) as [Hx _]; [left; left; auto|]. destruct (Hc y) as [Hy _]; [right; left; auto|].
    cbn [joinWith] in H. destruct l as [|x' l], k as [|y' k].
    + cbn [after] in H. rewrite !app_nil_s in H. congruence.
    + exfalso. rewrite after_cons in H. cbn [after] in H. rewrite app_nil_s in H. exact (comma_none x _ _ Hx H).
    + exfalso. rewrite after_cons in H. cbn [after] in H. rewrite app_nil_s in H. exact (comma_none y _ _ Hy (eq_sym H)).
    + rewrite !after_cons in H. apply comma_split in H as [-> H]; auto. f_equal. apply IH; auto.
      intros z [Hz|Hz]; apply Hc; [left|right]; right; auto.
Qed.
Lemma app_inv_tail_s (x y z : string) : x ++ z = y ++ z -> x = y.
Proof.
  assert (HL : forall a, String.length (a ++ z) = (String.length a + String.length z)%nat) by (induction a; simpl; congruence).
  revert y. induction x as [|c x IH]; intros [|d y] H; auto.
  - apply (f_equal String.length) in H. rewrite !HL in H. simpl in H. lia.
  - apply (f_equal String.length) in H. rewrite !HL in H. simpl in H. lia.
  - simpl in H. injection H as -> H. f_equal. auto.
Qed.

Lemma c47_injective s t : SetReach vok s -> SetReach vok t -> 
  (forall a, vok a -> commaFree (fmt_v a) /\ fmt_v a <> "") ->
  (forall a b, vok a -> vok b -> fmt_v a = fmt_v b -> veq a b = true) ->
  s_string s = s_string t -> s_equal s t = Ok true.
Proof.
  intros Hs Ht Hc Hi H. destruct (c05_equal s t Hs Ht) as (b & Eb & HB). rewrite Eb. f_equal. apply HB.
  apply sreach_ok in Hs, Ht. unfold s_string in H. rewrite !s_format_ok in H by (auto; exact Logic.I). injection H as H.
  apply app_inv_tail_s in H. cbn [shown fs_width fs_s] in H. pose proof (sok_allok s Hs) as Hos. pose proof (sok_allok t Ht) as Hot.
  apply join_inj in H.
  2: { intros x [Hx|Hx]; apply in_map_iff in Hx as (a & <- & Ha); apply Hc; auto. }
  assert (HI : forall l k, allok vok l -> allok vok k -> map fmt_v l = map fmt_v k -> forall v, vok v ->
    (exists e, In e l /\ veq e v = true) -> exists e, In e k /\ veq e v = true).
  { intros l k Hl Hk Hm v Hv (e & He & Hq). pose proof (in_map fmt_v _ _ He) as Hin. rewrite Hm in Hin.
    apply in_map_iff in Hin as (e' & Hf & He'). exists e'. split; auto.
    apply (veq_trans (vok := vok) e' e v); auto. }
  intros v Hv. rewrite !has_lookup, !lookup_not_None by auto. split; apply HI; auto.
Qed.

End SetSpecs.

(** ** Maps *)

Section MapSpecs.
Local Opaque maxTreeDepth fanout fb.
Context {E : Env} {HE : EnvOk E} {X V : Type} {KX : Key X} {kok : X -> Prop} {KO : KeyOk KX kok} {ZV : Zero V} {ZX : Zero X}
  {FX : Fmt X} {FV : Fmt V} {valok : V -> Prop}.
Implicit Types (m : gomap X V).

(** An entry as Map.Format shows it. *)
Definition pairText (f : fstate) (kv : X * V) : string := fmt_f f (fst kv) ++ ": " ++ fmt_f f (snd kv).

Lemma mapText_ok f fuel : forall (it : @mapIter X V) n, iok (vok := eok (kok := kok)) 0 (mi_i it) ->
  (List.length (remaining (mi_i it)) < fuel)%nat -> (0 <= n)%Z ->
  mapText fuel f it n = Ok (part n (map (pairText f) (map pair_of (remaining (mi_i it))))).
Proof.
  induction fuel as [|fuel IH]; intros it n Hi Hf Hn; [lia|]. cbn [mapText].
  destruct (mi_next_ok (kok := kok) it Hi) as (b & it' & -> & Hi' & Hr). cbn [bind].
  destruct (remaining (mi_i it)) as [|x xs] eqn:Er.
  - destruct Hr as [-> _]. unfold part. destruct (n >? 0)%Z; reflexivity.
  - destruct Hr as (-> & Hr & ->). cbn [List.length] in Hf. unfold pair_of at 1. 
    rewrite (IH it' (n + 1)%Z) by (rewrite ?Hr; auto; lia). cbn [bind map]. rewrite Hr. rewrite part_cons by lia.
    unfold pairText at 2, pair_of at 2 3. cbn [fst snd]. rewrite !app_assoc_s. reflexivity.
Qed.

Lemma m_format_ok m f : mok kok m -> debugs f = false ->
  m_format m f = Ok ("(" ++ joinWith ", " (map (pairText f) (map pair_of (mel m))) ++ ")").
Proof.
  intros Hm Hd. unfold m_format. rewrite Hd. destruct (m_range_ok (kok := kok) m Hm) as [Hi Hr].
  rewrite mapText_ok; auto; [|rewrite Hr; unfold mel, tel; lia|lia]. cbn [bind]. rewrite Hr. reflexivity.
Qed.

Lemma c45_map m f : MapReach kok valok m -> debugs f = false ->
  exists l, MapYields (m_range m) l /\ m_entries m = Ok l /\ UnequalKeys l /\
    (forall k v, In (k, v) l -> Maps m k v) /\
    (forall k v, kok k -> Maps m k v -> exists k', In (k', v) l /\ veq k' k = true) /\
    m_format m f = Ok ("(" ++ joinWith ", " (map (pairText f) l) ++ ")").
Proof.
  intros Hm Hd. destruct (c24_range m Hm) as (l & HY & El & HU & _ & _ & H1 & H2). exists l.
  split; auto. split; auto. split; auto. split; auto. split; auto. apply mreach_ok in Hm. rewrite m_format_ok by auto.
  rewrite (m_entries_ok (kok := kok)) in El by auto. congruence.
Qed.

Lemma c45_map_string m : MapReach kok valok m ->
  exists l, m_entries m = Ok l /\ m_string m = Ok ("(" ++ joinWith ", " (map (pairText fs_v) l) ++ ")").
Proof.
  intros Hm. destruct (c45_map m fs_v Hm eq_refl) as (l & _ & El & _ & _ & _ & Ef). exists l. auto.
Qed.

Lemma c44_map_debug m f : MapReach kok valok m -> debugs f = true -> m_isEmpty m = false ->
  exists l (text : string), m_entries m = Ok l /\ m_format m f = Ok ("M" ++ text) /\
    Woven (map (fun kv => kv_text f (fst kv) (snd kv)) l) text.
Proof.
  intros Hm Hd He. apply mreach_ok in Hm. exists (map pair_of (mel m)).
  pose proof (m_entries_ok (kok := kok) m Hm) as Hen. unfold m_isEmpty in He. destruct Hm as [Hw Hc].
  unfold mel, tel, m_format, t_format in *. rewrite Hd.
  destruct (t_root (m_tree m)) as [n|]; cbn [elemso] in *.
  - destruct (n_format_woven (vok := eok (kok := kok)) (ZT := entryZero) (F := entryFmt) 0 n (Hw n eq_refl) f) as (t & Et & Wt).
    exists t. split; [auto|]. rewrite Et. split; [reflexivity|]. rewrite map_map. exact Wt.
  - simpl in Hc. rewrite Hc in He. discriminate.
Qed.

Lemma c45_keyValue (kv : keyValue X V) f :
  kv_format kv f = fmt_f f (kv_key kv) ++ ":" ++ fmt_f f (kv_val kv) /\
  kv_string kv = fmt_f fs_s (kv_key kv) ++ ":" ++ fmt_f fs_s (kv_val kv).
Proof. split; reflexivity. Qed.

(** *** C46 *)

Lemma c46_array m F : MapReach kok valok m -> MapAnswers kok m F ->
  exists l, m_marshalArray m = Ok l /\ ListsMap kok l F /\ m_count m = Z.of_nat (List.length l).
Proof.
  intros Hm [_ (l & El & HL & Hc)]. exists l. auto.
Qed.

Lemma c46_object (geq : X -> X -> bool) m F : MapReach kok valok m -> MapAnswers kok m F ->
  (forall a b, geq a b = true <-> a = b) ->
  exists g, m_marshalObject geq m = Ok g /\ NoDup (map fst g) /\ ListsMap kok g F.
Proof.
  intros Hm HF Hg. destruct (c24_goMap_roundtrip geq m F Hm HF Hg) as (g & Eg & H1 & H2 & _). exists g. auto.
Qed.

(** *** C47 *)

Lemma c47_object {KV : Key V} (geq : X -> X -> bool) m n : MapReach kok valok m -> MapReach kok valok n ->
  m_equal m n = Ok true -> (forall a b, geq a b = true <-> a = b) ->
  (forall a b, kok a -> kok b -> veq a b = true -> a = b) -> (forall a b : V, veq a b = true -> a = b) ->
  exists g h, m_marshalObject geq m = Ok g /\ m_marshalObject geq n = Ok h /\ Permutation g h.
Proof.
  intros Hm Hn He Hg Hq Hv. destruct (c21_answers m Hm) as (F & HF & _). destruct (c21_answers n Hn) as (G & HG & _).
  destruct (c26_equal m n F G Hm Hn HF HG) as (b & Eb & HB). rewrite He in Eb. injection Eb as <-.
  pose proof (proj1 HB eq_refl) as HFG. clear HB.
  destruct (c46_object geq m F Hm HF Hg) as (g & Eg & Hnd & Hl).
  destruct (c46_object geq n G Hn HG Hg) as (h & Eh & Hnd' & Hl'). exists g, h. split; auto. split; auto.
  assert (ND : forall l : list (X * V), NoDup (map fst l) -> NoDup l) by (intros l; apply NoDup_map_inv).
  apply NoDup_Permutation; auto.
  assert (HI : forall (A B : X -> option V) a b, ListsMap kok a A -> ListsMap kok b B -> (forall k, kok k -> A k = B k) -> forall kv, In kv a -> In kv b).
  { intros A B a b (Ha1 & Ha2 & Ha3) (Hb1 & Hb2 & Hb3) HAB [k v] Hi. pose proof (Ha1 _ Hi) as Hk. cbn [fst] in Hk.
    assert (HFk : B k = Some v).
    { rewrite <- HAB by auto. apply Ha3; auto. exists k. split; auto. apply (veq_refl (vok := kok)); auto. }
    apply Hb3 in HFk as (k' & Hi' & Hqq); auto. rewrite <- (Hq k' k); auto. apply (Hb1 _ Hi'). }
  assert (HE' : forall k, kok k -> F k = G k).
  { intros k Hk. specialize (HFG k Hk). destruct (F k), (G k); try tauto. f_equal. auto. }
  intros kv. split; [apply (HI F G)|apply (HI G F)]; auto. intros k Hk. symmetry. auto.
Qed.

End MapSpecs.

(** ** Integer sets *)

Section IntSpecs.
Local Opaque maxTreeDepth fanout fb ctz popcount one_bits strip_low.
Context {E : Env} {HE : EnvOk E} (I : intTy) (h : Z -> N -> N) (HI : it_ok I) {FZ : Fmt Z} {FN : Fmt N}.

Lemma intText_ok f fuel : forall i n, iiok h i -> (List.length (iiRest I i) < fuel)%nat -> (0 <= n)%Z ->
  intText I fuel f i n = Ok (part n (map (fmt_f f) (iiRest I i))).
Proof.
  induction fuel as [|fuel IH]; intros i n Hi Hf Hn; [lia|]. cbn [intText].
  destruct (ii_next_ok I h i Hi) as (b & i' & -> & Hi' & Hr). cbn [bind].
  destruct (iiRest I i) as [|x xs] eqn:Er.
  - destruct Hr as [-> _]. unfold part. destruct (n >? 0)%Z; reflexivity.
  - destruct Hr as (-> & Hr & Hv). cbn [List.length] in Hf.
    rewrite (IH i' (n + 1)%Z) by (rewrite ?Hr; auto; lia). cbn [bind map]. rewrite Hr, Hv. rewrite part_cons by lia. reflexivity.
Qed.

Lemma c45_intSet s f : IntReach I h fits s -> debugs f = false ->
  exists l, IntYields I (is_range s) l /\ is_elements I s = Ok l /\ NoDup l /\ (forall i, In i l <-> IntIn h s i) /\
    is_format I s f = Ok ("[" ++ joinWith ", " (map (fmt_f f) l) ++ "]").
Proof.
  intros Hs Hd. destruct (c30_reads I h HI s Hs) as [_ (l & El & Hnd & Hin & HY & _) _ _]. apply (reach_isok I h HI) in Hs.
  exists l. split; auto. split; auto. split; auto. split; auto. unfold is_format. rewrite Hd.
  destruct (is_range_ok I h s Hs) as [Hi Hr]. rewrite (is_elements_ok I h) in El by auto. injection El as <-.
  rewrite intText_ok; auto; [rewrite Hr; reflexivity| |lia].
  rewrite Hr. pose proof (isel_bound I (mel (is_data s))) as Hb. unfold isel. unfold mel, tel in *. lia.
Qed.

End IntSpecs.

(** ** C48: Braille *)

Section Braille.
Local Open Scope N_scope.

Lemma brailleByte_inj a b : a < 256 -> b < 256 -> brailleByte a = brailleByte b -> a = b.
Proof.
  intros Ha Hb H.
  assert (HD : NoDup (map (fun i => brailleByte (N.of_nat i)) (seq 0 256))).
  { assert (HC : forall l, (fix nd (l : list N) : bool := match l with [] => true | x :: l' => (negb (existsb (N.eqb x) l') && nd l')%bool end) l = true -> NoDup l).
    { induction l as [|x l IH]; intros HC; constructor.
      - apply andb_prop in HC as [HC _]. intros Hi. apply negb_true_iff in HC. rewrite <- not_true_iff_false in HC. apply HC.
        apply existsb_exists. exists x. split; auto. apply N.eqb_refl.
      - apply IH. apply andb_prop in HC as [_ HC]. exact HC. }
    apply HC. vm_compute. reflexivity. }
  rewrite NoDup_nth_error in HD.
  assert (HN : forall x, x < 256 -> nth_error (map (fun i => brailleByte (N.of_nat i)) (seq 0 256)) (N.to_nat x) = Some (brailleByte x)).
  { intros x Hx. rewrite nth_error_map, (nth_error_nth' _ 0%nat) by (rewrite seq_length; lia). rewrite seq_nth by lia. simpl.
    rewrite N2Nat.id. reflexivity. }
  apply N2Nat.inj. apply HD; [rewrite map_length, seq_length; lia|]. rewrite !HN by auto. congruence.
Qed.

(** A word whose low [64 - 8 * n] bits are zero needs at most [n] steps. *)
Lemma braille_step n i : i < 2 ^ 64 -> (exists j, i = j * 2 ^ (64 - 8 * N.of_nat (S n))) -> (S n <= 8)%nat ->
  wshl 64 i 8 < 2 ^ 64 /\ exists j, wshl 64 i 8 = j * 2 ^ (64 - 8 * N.of_nat n).
Proof.
  intros Hi (j & Hj) Hn. split; [apply wrap_lt|]. unfold wshl, wrap. rewrite N.shiftl_mul_pow2.
  set (w := 64 - 8 * N.of_nat n). assert (Hw : w = 64 - 8 * N.of_nat (S n) + 8) by lia. assert (w <= 64) by lia.
  replace (2 ^ 64) with (2 ^ (8 * N.of_nat n) * 2 ^ w) by (rewrite <- N.pow_add_r; f_equal; lia).
  replace (i * 2 ^ 8) with (j * 2 ^ w) by (rewrite Hj, Hw, N.pow_add_r; lia).
  rewrite N.mul_mod_distr_r; [eexists; reflexivity| |]; apply N.pow_nonzero; lia.
Qed.

Lemma brailleEncoded_ok n : (n <= 8)%nat -> forall i, i < 2 ^ 64 -> (exists j, i = j * 2 ^ (64 - 8 * N.of_nat n)) ->
  exists l, brailleEncoded n i = Ok l.
Proof.
  induction n as [|n IH]; intros Hn i Hi Hj.
  - cbn [brailleEncoded]. destruct Hj as (j & ->). change (64 - 8 * N.of_nat 0) with 64 in *.
    assert (j = 0) as -> by nia. exists []. reflexivity.
  - cbn [brailleEncoded]. destruct (i =? 0); [eauto|]. destruct (braille_step n i Hi Hj Hn) as [H1 H2].
    destruct (IH ltac:(lia) _ H1 H2) as (l & ->). eexists. reflexivity.
Qed.

Lemma shl8_inj a b : a < 2 ^ 64 -> b < 2 ^ 64 -> N.shiftr a 56 = N.shiftr b 56 -> wshl 64 a 8 = wshl 64 b 8 -> a = b.
Proof.
  intros Ha Hb Ht Hl. apply N.bits_inj. intros k. destruct (N.ltb_spec k 56) as [Hk|Hk].
  - apply (f_equal (fun x => N.testbit x (k + 8))) in Hl. unfold wshl, wrap in Hl.
    rewrite !N.mod_pow2_bits_low in Hl by lia. rewrite !N.shiftl_spec_high' in Hl by lia.
    replace (k + 8 - 8) with k in Hl by lia. auto.
  - apply (f_equal (fun x => N.testbit x (k - 56))) in Ht. rewrite !N.shiftr_spec' in Ht.
    replace (k - 56 + 56) with k in Ht by lia. auto.
Qed.

Lemma wshl_lt w a k : wshl w a k < 2 ^ w.
Proof. apply wrap_lt. Qed.
Lemma ok_cons_inj {A} (a b : A) (k l m : list A) : Ok (a :: k) = Ok m -> Ok (b :: l) = Ok m -> a = b /\ k = l.
Proof. intros H1 H2. rewrite <- H2 in H1. injection H1 as -> ->. auto. Qed.
Local Opaque brailleByte wshl.
Lemma brailleEncoded_inj n : forall a b l, a < 2 ^ 64 -> b < 2 ^ 64 ->
  brailleEncoded n a = Ok l -> brailleEncoded n b = Ok l -> a = b.
Proof.
  induction n as [|n IH]; intros a b l Ha Hb H1 H2; cbn [brailleEncoded] in *.
  - destruct (N.eqb_spec a 0), (N.eqb_spec b 0); congruence.
  - destruct (N.eqb_spec a 0) as [->|Na], (N.eqb_spec b 0) as [->|Nb]; auto.
    + injection H1 as <-. destruct (brailleEncoded n (wshl 64 b 8)); discriminate.
    + injection H2 as <-. destruct (brailleEncoded n (wshl 64 a 8)); discriminate.
    + destruct (brailleEncoded n (wshl 64 a 8)) as [la| |] eqn:Ea; try discriminate.
      destruct (brailleEncoded n (wshl 64 b 8)) as [lb| |] eqn:Eb; try discriminate. cbn [bind] in H1, H2.
      destruct (ok_cons_inj _ _ _ _ _ H1 H2) as [Ht Hl]. subst lb.
      assert (Hs : forall x, x < 2 ^ 64 -> N.shiftr x 56 < 256).
      { intros x Hx. rewrite N.shiftr_div_pow2. apply N.div_lt_upper_bound; [discriminate|]. exact Hx. }
      apply shl8_inj; auto.
      * apply brailleByte_inj; auto.
      * apply (IH _ _ la); auto using wshl_lt.
Qed.

Local Opaque brailleEncoded.
Lemma reverse64_bit b k : (k < 64)%nat -> N.testbit (reverse64 b) (N.of_nat k) = N.testbit b (N.of_nat (63 - k)).
Proof.
  intros Hk. unfold reverse64.
  assert (HG : forall l r, (forall j, In j l -> (j < 64)%nat) ->
    N.testbit (fold_left (fun r j => if N.testbit b (N.of_nat j) then N.setbit r (N.of_nat (63 - j)) else r) l r) (N.of_nat k) =
    (N.testbit r (N.of_nat k) || (existsb (fun j => Nat.eqb j (63 - k)) l && N.testbit b (N.of_nat (63 - k))))%bool).
  { induction l as [|j l IH]; intros r Hl; cbn [fold_left existsb].
    - rewrite orb_false_r. auto.
    - rewrite IH by (intros; apply Hl; right; auto). assert (Hj : (j < 64)%nat) by (apply Hl; left; auto).
      destruct (Nat.eqb_spec j (63 - k)) as [->|Hne].
      + destruct (N.testbit b (N.of_nat (63 - k))) eqn:Eb; rewrite ?andb_false_r, ?orb_false_r; auto.
        replace (63 - (63 - k))%nat with k by lia. rewrite N.setbit_eq. rewrite orb_true_l. simpl. rewrite orb_true_r. auto.
      + cbn [orb]. destruct (N.testbit b (N.of_nat j)); auto. rewrite N.setbit_neq by lia. auto. }
  rewrite HG by (intros j Hj; apply in_seq in Hj; lia). rewrite N.bits_0. cbn [orb].
  assert (existsb (fun j => Nat.eqb j (63 - k)) (seq 0 64) = true) as ->; [|reflexivity].
  apply existsb_exists. exists (63 - k)%nat. split; [apply in_seq; lia|apply Nat.eqb_refl].
Qed.

Lemma reverse64_lt b : reverse64 b < 2 ^ 64.
Proof.
  unfold reverse64. assert (HG : forall l r, r < 2 ^ 64 ->
    fold_left (fun r j => if N.testbit b (N.of_nat j) then N.setbit r (N.of_nat (63 - j)) else r) l r < 2 ^ 64).
  { induction l as [|j l IH]; intros r Hr; cbn [fold_left]; auto. apply IH. destruct (N.testbit b (N.of_nat j)); auto.
    unfold N.setbit. rewrite N.shiftl_mul_pow2, N.mul_1_l. apply lt_pow_lor; auto. apply N.pow_lt_mono_r; lia. }
  apply HG. reflexivity.
Qed.

Lemma c48_returns b : exists l, bi_string b = Ok l.
Proof.
  apply brailleEncoded_ok; auto; [apply reverse64_lt|]. exists (reverse64 b). change (64 - 8 * N.of_nat 8) with 0. rewrite N.mul_1_r. auto.
Qed.

Lemma c48_injective a b : a < 2 ^ 64 -> b < 2 ^ 64 -> bi_string a = bi_string b -> a = b.
Proof.
  intros Ha Hb H. destruct (c48_returns a) as (l & El).
  assert (HR : reverse64 a = reverse64 b).
  { apply (brailleEncoded_inj 8 _ _ l); auto using reverse64_lt. unfold bi_string in *. congruence. }
  apply N.bits_inj. intros k. destruct (N.ltb_spec k 64) as [Hk|Hk].
  - replace k with (N.of_nat (63 - (63 - N.to_nat k))) by lia. rewrite <- !reverse64_bit by lia. congruence.
  - rewrite !(testbit_above 64) by auto. auto.
Qed.

(** The dots of a Braille pattern: the left column from top to bottom, then the right one. *)
Definition dots (c : N) : list bool := map (N.testbit c) [0; 1; 2; 6; 3; 4; 5; 7].
(** Bits 8 k to 8 k + 7. *)
Definition byteBits (b : N) (k : nat) : list bool := map (fun j => N.testbit b (8 * N.of_nat k + N.of_nat j)) (seq 0 8).

Lemma brailleByte_dots y : y < 256 ->
  (y = 0 /\ brailleByte y = 126) \/
  (y <> 0 /\ brailleByte y / 256 = 40 /\ dots (brailleByte y) = map (fun j => N.testbit y (7 - N.of_nat j)) (seq 0 8)).
Proof.
  intros Hy. destruct (N.eqb_spec y 0) as [->|Hn]; [left; auto|]. right. split; auto.
  assert (H : forallb (fun i => let y := N.of_nat i in
    ((y =? 0) || ((brailleByte y / 256 =? 40) && if list_eq_dec Bool.bool_dec (dots (brailleByte y)) (map (fun j => N.testbit y (7 - N.of_nat j)) (seq 0 8)) then true else false))%bool) (seq 0 256) = true)
    by (vm_compute; reflexivity).
  rewrite forallb_forall in H. specialize (H (N.to_nat y)). rewrite N2Nat.id in H. cbn zeta in H.
  destruct (y =? 0) eqn:E0; [apply N.eqb_eq in E0; lia|]. cbn [orb] in H.
  assert (H' := H ltac:(apply in_seq; lia)). apply andb_prop in H' as [H1 H2]. apply N.eqb_eq in H1. split; auto.
  destruct (list_eq_dec _ _ _) as [e|]; [exact e|discriminate].
Qed.
Local Opaque dots.

Local Transparent brailleEncoded wshl.
Lemma shl8_bit i m : N.testbit (wshl 64 i 8) (m + 8) = (N.testbit i m && (m <? 56))%bool.
Proof.
  unfold wshl, wrap. destruct (N.ltb_spec m 56).
  - rewrite N.mod_pow2_bits_low, N.shiftl_spec_high' by lia. rewrite andb_true_r. f_equal. lia.
  - rewrite N.mod_pow2_bits_high by lia. rewrite andb_false_r. auto.
Qed.

Local Opaque wshl.
Lemma brailleEncoded_bytes n : forall i l, i < 2 ^ 64 -> (n <= 8)%nat -> brailleEncoded n i = Ok l ->
  exists ys, l = map brailleByte ys /\ (List.length ys <= n)%nat /\ (forall y, In y ys -> y < 256) /\ (ys <> [] -> last ys 0 <> 0) /\
    (forall k y j, nth_error ys k = Some y -> (j < 8)%nat -> N.testbit y (7 - N.of_nat j) = N.testbit i (63 - (8 * N.of_nat k + N.of_nat j))) /\
    (forall m, m < 64 -> N.testbit i (63 - m) = true -> m < 8 * N.of_nat (List.length ys)).
Proof.
  induction n as [|n IH]; intros i l Hi Hn Hl; cbn [brailleEncoded] in Hl.
  - destruct (N.eqb_spec i 0) as [->|]; [|discriminate]. injection Hl as <-. exists []. repeat split; auto; try (intros; contradiction).
    + intros k y j H. destruct k; discriminate.
    + intros m _ H. rewrite N.bits_0 in H. discriminate.
  - destruct (N.eqb_spec i 0) as [->|Hz].
    + injection Hl as <-. exists []. repeat split; auto; try (intros; contradiction); [simpl; lia| |].
      * intros k y j H. destruct k; discriminate.
      * intros m _ H. rewrite N.bits_0 in H. discriminate.
    + destruct (brailleEncoded n (wshl 64 i 8)) as [l'| |] eqn:E'; try discriminate. cbn [bind] in Hl.
      apply (f_equal (fun r => match r with Ok x => x | _ => [] end)) in Hl. subst l.
      destruct (IH (wshl 64 i 8) l') as (ys & -> & Hlen & Hlt & Hlast & Hbit & Hhigh); auto using wshl_lt; [lia|].
      exists (N.shiftr i 56 :: ys). split; [reflexivity|]. split; [simpl; lia|].
      assert (Htop : N.shiftr i 56 < 256).
      { rewrite N.shiftr_div_pow2. apply N.div_lt_upper_bound; [discriminate|]. exact Hi. }
      split; [|split; [|split]].
      * intros y [<-|Hy]; auto.
      * intros _. destruct ys as [|y ys].
        -- cbn [last]. intros H0. apply Hz. apply N.bits_inj. intros k. rewrite N.bits_0.
           destruct (N.ltb_spec k 64) as [Hk|Hk]; [|apply (testbit_above 64); auto].
           destruct (N.ltb_spec k 56) as [Hk'|Hk'].
           ++ destruct (N.testbit i k) eqn:Eb; auto. exfalso.
              specialize (Hhigh (63 - (k + 8)) ltac:(lia)). replace (63 - (63 - (k + 8))) with (k + 8) in Hhigh by lia.
              rewrite shl8_bit, Eb in Hhigh. destruct (N.ltb_spec k 56); [|lia]. specialize (Hhigh eq_refl). simpl in Hhigh. lia.
           ++ replace k with (k - 56 + 56) by lia. rewrite <- N.shiftr_spec', H0. apply N.bits_0.
        -- change (last (N.shiftr i 56 :: y :: ys) 0) with (last (y :: ys) 0). apply Hlast. discriminate.
      * intros k y j Hk Hj. destruct k as [|k]; cbn [nth_error] in Hk.
        -- assert (y = N.shiftr i 56) as -> by congruence. rewrite N.shiftr_spec'. f_equal. lia.
        -- rewrite (Hbit k y j Hk Hj). assert (Hk8 : (k < List.length ys)%nat) by (apply nth_error_Some; congruence).
           replace (63 - (8 * N.of_nat k + N.of_nat j)) with ((63 - (8 * N.of_nat (S k) + N.of_nat j)) + 8) by lia.
           rewrite shl8_bit. destruct (N.ltb_spec (63 - (8 * N.of_nat (S k) + N.of_nat j)) 56); [|lia]. rewrite andb_true_r. auto.
      * intros m Hm Hb. cbn [List.length]. destruct (N.ltb_spec m 8) as [H8|H8]; [lia|].
        specialize (Hhigh (m - 8) ltac:(lia)). replace (63 - (m - 8)) with (63 - m + 8) in Hhigh by lia.
        rewrite shl8_bit, Hb in Hhigh. destruct (N.ltb_spec (63 - m) 56); [|lia]. specialize (Hhigh eq_refl). lia.
Qed.
Local Opaque brailleEncoded.

(** The k-th character shows bits 8 k to 8 k + 7 as dots, or '~' if there are none, up to the last bit that is set. *)
Lemma c48_shows b : b < 2 ^ 64 ->
  exists l, bi_string b = Ok l /\ (List.length l <= 8)%nat /\ (l <> [] -> last l 126 <> 126) /\
    (forall i, N.testbit b i = true -> i < 8 * N.of_nat (List.length l)) /\
    forall k c, nth_error l k = Some c ->
      (c = 126 /\ byteBits b k = repeat false 8) \/ (c / 256 = 40 /\ dots c = byteBits b k /\ byteBits b k <> repeat false 8).
Proof.
  intros Hb. destruct (c48_returns b) as (l & El). exists l. split; auto. unfold bi_string in El.
  destruct (brailleEncoded_bytes 8 (reverse64 b) l (reverse64_lt b) ltac:(lia) El) as (ys & -> & Hlen & Hlt & Hlast & Hbit & Hhigh).
  rewrite map_length. split; auto. split; [|split].
  - intros Hn. assert (Hys : ys <> []) by (intros ->; apply Hn; reflexivity). specialize (Hlast Hys).
    destruct (exists_last Hys) as (ys' & y & ->). rewrite last_last in Hlast. rewrite map_app. cbn [map]. rewrite last_last.
    destruct (brailleByte_dots y) as [[H _]|(_ & H & _)]; [apply Hlt; apply in_app_iff; right; left; auto|congruence|].
    intros H1. rewrite H1 in H. discriminate.
  - intros i Hi. assert (i < 64) by (destruct (N.ltb_spec i 64); auto; rewrite (testbit_above 64) in Hi by auto; discriminate).
    apply Hhigh; auto. replace (63 - i) with (N.of_nat (63 - N.to_nat i)) by lia. rewrite reverse64_bit by lia.
    replace (N.of_nat (63 - (63 - N.to_nat i))) with i by lia. auto.
  - intros k c Hk. rewrite nth_error_map in Hk. destruct (nth_error ys k) as [y|] eqn:Ey; [|discriminate]. injection Hk as <-.
    assert (Hk8 : (k < 8)%nat) by (assert (k < List.length ys)%nat by (apply nth_error_Some; congruence); lia).
    assert (HB : byteBits b k = map (fun j => N.testbit y (7 - N.of_nat j)) (seq 0 8)).
    { unfold byteBits. apply map_ext_in. intros j Hj. apply in_seq in Hj. rewrite (Hbit k y j Ey) by lia.
      replace (63 - (8 * N.of_nat k + N.of_nat j)) with (N.of_nat (63 - (8 * k + j))) by lia. rewrite reverse64_bit by lia. f_equal. lia. }
    assert (Hyl : y < 256) by (apply Hlt; eapply nth_error_In; eauto).
    destruct (brailleByte_dots y Hyl) as [[-> H]|(Hne & H1 & H2)].
    + left. split; [exact H|rewrite HB; reflexivity].
    + right. split; [exact H1|]. split; [congruence|]. rewrite HB. intros H. apply Hne. apply N.bits_inj. intros m. rewrite N.bits_0.
      destruct (N.ltb_spec m 8) as [Hm|Hm]; [|apply (testbit_above 8); auto].
      assert (Hx : nth_error (map (fun j => N.testbit y (7 - N.of_nat j)) (seq 0 8)) (7 - N.to_nat m) = nth_error (repeat false 8) (7 - N.to_nat m)) by (rewrite H; auto).
      rewrite nth_error_map in Hx. rewrite (nth_error_nth' (seq 0 8) 0%nat) in Hx by (rewrite seq_length; lia). rewrite seq_nth in Hx by lia.
      cbn [option_map] in Hx. rewrite (nth_error_repeat false) in Hx by lia. apply (f_equal (fun o => match o with Some x => x | None => false end)) in Hx. rewrite <- Hx. f_equal. lia.
Qed.

End Braille.
