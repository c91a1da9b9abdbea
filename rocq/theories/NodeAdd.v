(** * NodeAdd: AddFast, Add, With, WithFast, newBranchFrom, Canonical. *)
From Verif Require Import Base Bits Env EnvFacts Node NodeWf.

Section NodeAdd.
Local Opaque maxTreeDepth fanout fb.
Context {E : Env} {T : Type} {K : Key T} {vok : T -> Prop} {KO : KeyOk K vok}.
Notation node := (node T).
Notation wf := (wf vok).
Notation pre := (pre vok).
Notation allok := (allok vok).

(** What insertion of [v] does to lookups: an equal element [e] is replaced by
    [cf e v], otherwise [v] is added. *)
Definition upd (cf : T -> T -> T) (l : list T) (v w : T) : option T :=
  if veq v w then Some (match lookup l v with Some e => cf e v | None => v end)
  else lookup l w.

Definition hit (l : list T) (v : T) : Z := if isSome (lookup l v) then 1%Z else 0%Z.

(** The combiner returns an element equal to its arguments. *)
Definition cfok (cf : T -> T -> T) : Prop :=
  forall a b, vok a -> vok b -> veq a b = true -> vok (cf a b) /\ veq (cf a b) b = true.

Lemma cfok_rhs : cfok (fun _ b => b).
Proof. intros a b Ha Hb H. split; auto. apply veq_refl; auto. Qed.
Lemma cfok_lhs : cfok (fun a _ => a).
Proof. intros a b Ha Hb H. split; auto. Qed.
Lemma cfok_flip cf : cfok cf -> cfok (fun a b => cf b a).
Proof.
  intros H a b Ha Hb Hab. destruct (H b a) as [H1 H2]; auto.
  - apply veq_sym; auto.
  - split; auto. apply (veq_trans _ a b); auto.
Qed.

(** ** Lists *)

Lemma replaceFirst_None p g (l : list T) :
  replaceFirst p g l = None <-> find p l = None.
Proof.
  induction l as [|a l IH]; simpl; [tauto|].
  destruct (p a); [split; discriminate|]. destruct (replaceFirst p g l); split; intros H; auto.
  - discriminate.
  - apply IH in H; discriminate.
  - apply IH; auto.
Qed.

Lemma replaceFirst_Some p g (l l' : list T) :
  replaceFirst p g l = Some l' ->
  exists l1 e l2, l = l1 ++ e :: l2 /\ l' = l1 ++ g e :: l2 /\ find p l = Some e.
Proof.
  revert l'; induction l as [|a l IH]; simpl; intros l' H; [discriminate|].
  destruct (p a).
  - inversion H; subst. exists [], a, l; auto.
  - destruct (replaceFirst p g l) as [l''|]; [|discriminate]. inversion H; subst.
    destruct (IH l'') as (l1 & e & l2 & H1 & H2 & H3); auto.
    exists (a :: l1), e, l2. subst. auto.
Qed.

(** Replacing an element of a list of different elements by an equal one. *)
Lemma replace_distinct l1 (e e' : T) l2 :
  distinct (l1 ++ e :: l2) -> allok (l1 ++ e :: l2) -> vok e' -> veq e e' = true ->
  distinct (l1 ++ e' :: l2).
Proof.
  intros Hd Hok He' Hq. apply allok_app in Hok as [Hok1 Hok2].
  apply distinct_app in Hd as (H1 & H2 & H3). inversion H2 as [|? ? H4 H5]; subst.
  assert (vok e) by (eapply allok_hd; eauto).
  apply distinct_app. repeat split; auto.
  - constructor; auto. intros b Hb. rewrite <- (H4 b Hb). apply veq_trans_l; auto.
    apply Hok2; right; auto.
  - intros a b Ha [<-|Hb]; [|apply H3; auto; right; auto].
    rewrite <- (H3 a e) by (auto; left; auto). symmetry. apply veq_trans_r; auto.
Qed.

Lemma replace_lookup l1 (e e' : T) l2 w :
  distinct (l1 ++ e :: l2) -> allok (l1 ++ e :: l2) -> vok e' -> veq e e' = true -> vok w ->
  lookup (l1 ++ e' :: l2) w = if veq e w then Some e' else lookup (l1 ++ e :: l2) w.
Proof.
  intros Hd Hok He' Hq Hw.
  apply allok_app in Hok as [Hok1 Hok2].
  assert (Hoke : vok e) by (eapply allok_hd; eauto).
  apply distinct_app in Hd as (H1 & H2 & H3).
  rewrite !lookup_app.
  assert (Ee : veq e' w = veq e w) by (apply veq_trans_l; auto).
  destruct (lookup l1 w) as [x|] eqn:El.
  - apply lookup_Some in El as [Hx Hxw].
    destruct (veq e w) eqn:Ew; auto.
    exfalso. assert (veq x e = true).
    { apply (veq_trans x w e); auto. apply veq_sym; auto. }
    assert (veq x e = false) by (apply H3; auto; left; auto). congruence.
  - unfold lookup; simpl. rewrite Ee. destruct (veq e w); auto.
Qed.

Lemma replace_upd cf l1 (e v : T) l2 w :
  cfok cf -> distinct (l1 ++ e :: l2) -> allok (l1 ++ e :: l2) -> vok v -> vok w ->
  veq e v = true ->
  lookup (l1 ++ cf e v :: l2) w = upd cf (l1 ++ e :: l2) v w.
Proof.
  intros Hcf Hd Hok Hv Hw Hq.
  assert (Hoke : vok e) by (apply Hok; apply in_or_app; right; left; auto).
  destruct (Hcf e v) as [Hc1 Hc2]; auto.
  rewrite (replace_lookup l1 e (cf e v) l2 w); auto.
  2:{ apply (veq_trans e v _); auto. apply veq_sym; auto. }
  unfold upd. rewrite (veq_trans_l e v w) by auto.
  destruct (veq e w); auto. f_equal.
  assert (lookup (l1 ++ e :: l2) v = Some e) as ->; auto.
  apply lookup_iff; auto. split; auto. apply in_or_app; right; left; auto.
Qed.

Lemma snoc_upd cf l (v w : T) :
  allok l -> vok v -> vok w -> lookup l v = None -> lookup (l ++ [v]) w = upd cf l v w.
Proof.
  intros Hok Hv Hw Hn. rewrite lookup_app. unfold upd. rewrite Hn.
  destruct (veq v w) eqn:Eq.
  - rewrite <- (lookup_veq l v w) by auto. rewrite Hn. unfold lookup; simpl. rewrite Eq. auto.
  - unfold lookup at 2; simpl. rewrite Eq. destruct (lookup l w); auto.
Qed.

Lemma snoc_distinct l (v : T) :
  distinct l -> (forall e, In e l -> veq e v = false) -> distinct (l ++ [v]).
Proof.
  intros Hd H. apply distinct_app. repeat split; auto.
  - repeat constructor. intros b [].
  - intros a b Ha [<-|[]]; auto.
Qed.

(** ** Result of an insertion *)

Definition addres (cf : T -> T -> T) (l : list T) (v : T) (r : list T) (m : Z) : Prop :=
  (forall w, vok w -> lookup r w = upd cf l v w) /\
  (Z.of_nat (length r) + m = Z.of_nat (length l) + 1)%Z /\
  m = hit l v.

Lemma addres_in cf l v r m e :
  cfok cf -> allok l -> vok v -> distinct r -> allok r -> addres cf l v r m -> In e r -> In e l \/ veq v e = true.
Proof.
  intros Hcf Hokl Hv Hd Hok (H1 & _) He.
  pose proof (lookup_In r e Hd Hok He) as El.
  rewrite H1 in El by auto. unfold upd in El.
  destruct (veq v e) eqn:Eq; auto. left. apply lookup_Some in El; tauto.
Qed.

Lemma addres_digit cf d l v r m i :
  cfok cf -> allok l -> vok v -> distinct r -> allok r -> addres cf l v r m ->
  (forall e, In e l -> digit d e = i) -> digit d v = i -> forall e, In e r -> digit d e = i.
Proof.
  intros Hcf Hokl Hv Hd Hok Ha Hl Hdv e He.
  destruct (addres_in cf l v r m e) as [H|H]; auto.
  rewrite <- Hdv. symmetry. apply veq_digit; auto.
Qed.

(** One child of a branch absorbed [v]. *)
Lemma addres_branch cf d data v c r m :
  cfok cf ->
  placed d data -> allok (flat_map elemso data) -> length data = fanout -> vok v ->
  child data (digit d v) = Some c -> wf (S d) r -> addres cf (elems c) v (elems r) m ->
  addres cf (flat_map elemso data) v (flat_map elemso (set_nth data (digit d v) (Some r))) m.
Proof.
  intros Hcf Hp Hok Hlen Hv Hc Hr Ha.
  assert (Hi : digit d v < length data) by (rewrite Hlen; apply digit_lt).
  assert (Hokc : allok (elems c)).
  { intros e He. apply Hok. apply in_flat_map_child. exists (digit d v). rewrite Hc. auto. }
  assert (Hdig : forall e, In e (elems r) -> digit d e = digit d v).
  { eapply addres_digit; eauto.
    - eapply wf_distinct; eauto.
    - eapply wf_allok; eauto.
    - intros e He. apply (Hp _ e). rewrite Hc; auto. }
  assert (Hlv : lookup (flat_map elemso data) v = lookup (elems c) v).
  { rewrite (lookup_placed d) by auto. rewrite Hc. auto. }
  destruct Ha as (H1 & H2 & H3). repeat split.
  - intros w Hw.
    rewrite (lookup_set d); auto; [|simpl; eapply wf_allok; eauto].
    unfold upd. rewrite Hlv.
    destruct (Nat.eqb_spec (digit d v) (digit d w)) as [Hdw|Hdw].
    + simpl. rewrite H1 by auto. unfold upd. destruct (veq v w); auto.
      rewrite (lookup_placed d data) by auto. rewrite <- Hdw, Hc. auto.
    + destruct (veq v w) eqn:Eq; auto. exfalso. apply Hdw. apply veq_digit; auto.
  - rewrite length_set by auto. rewrite Hc. unfold leno; simpl. lia.
  - rewrite H3. unfold hit. rewrite Hlv. auto.
Qed.

(** An empty slot of a branch received [v]. *)
Lemma addres_branch_new cf d data v :
  placed d data -> allok (flat_map elemso data) -> length data = fanout -> vok v ->
  child data (digit d v) = None ->
  addres cf (flat_map elemso data) v (flat_map elemso (set_nth data (digit d v) (Some (Leaf1 v)))) 0.
Proof.
  intros Hp Hok Hlen Hv Hc.
  assert (Hi : digit d v < length data) by (rewrite Hlen; apply digit_lt).
  assert (Hlv : lookup (flat_map elemso data) v = None).
  { rewrite (lookup_placed d) by auto. rewrite Hc. auto. }
  repeat split.
  - intros w Hw. rewrite (lookup_set d); auto.
    + unfold upd. rewrite Hlv.
      destruct (Nat.eqb_spec (digit d v) (digit d w)) as [Hdw|Hdw].
      * change (lookup (elemso (Some (Leaf1 v))) w) with (if veq v w then Some v else None).
        destruct (veq v w); auto.
        rewrite (lookup_placed d) by auto. rewrite <- Hdw, Hc. auto.
      * destruct (veq v w) eqn:Eq; auto. exfalso. apply Hdw. apply veq_digit; auto.
    + intros e [<-|[]]; auto.
    + intros e [<-|[]]; auto.
  - rewrite length_set by auto. rewrite Hc. unfold leno; simpl. lia.
  - unfold hit. rewrite Hlv. auto.
Qed.

(** ** AddFast and newBranchFrom *)

Definition rhs : T -> T -> T := fun _ b => b.

Definition addB (d fuel : nat) : Prop :=
  forall n v, pre d n -> vok v ->
  exists r m, addFast fuel n v d (newHasher v d) = Ok (r, m) /\ pre d r /\
    addres rhs (elems n) v (elems r) m.

Definition addN (d fuel : nat) : Prop :=
  forall n v, wf d n -> vok v ->
  exists r m, addFast fuel n v d (newHasher v d) = Ok (r, m) /\ wf d r /\
    addres rhs (elems n) v (elems r) m.

(** The combination of [l] with a list of new elements. *)
Lemma newBranchFrom_fold d fuel data b :
  addB d fuel -> pre d b -> distinct (elems b ++ data) -> allok data ->
  exists r,
    foldM (fun b e => '(b', _) <- addFast fuel b e d (newHasher e d) ;; Ok b') b data = Ok r /\
    pre d r /\
    (forall w, vok w -> lookup (elems r) w = lookup (elems b ++ data) w) /\
    length (elems r) = (length (elems b) + length data)%nat.
Proof.
  intros HB. revert b. induction data as [|v data IH]; intros b Hb Hd Hok.
  - exists b. simpl. rewrite app_nil_r, Nat.add_0_r. auto.
  - assert (Hv : vok v) by (eapply allok_hd; eauto).
    assert (Hokb : allok (elems b)) by (eapply pre_allok; eauto).
    destruct (HB b v) as (b' & m & E1 & Hb' & H1 & H2 & H3); auto.
    assert (Hn : lookup (elems b) v = None).
    { apply lookup_None. intros e He. apply distinct_app in Hd as (_ & _ & Hd).
      apply Hd; auto. left; auto. }
    assert (m = 0%Z) by (rewrite H3; unfold hit; rewrite Hn; auto). subst m.
    assert (Hlk : forall w, vok w -> lookup (elems b') w = lookup (elems b ++ [v]) w).
    { intros w Hw. rewrite H1 by auto. symmetry. apply snoc_upd; auto. }
    destruct (IH b') as (r & E2 & Hr & H4 & H5); auto.
    { apply distinct_app. apply distinct_app in Hd as (Hd1 & Hd2 & Hd3).
      inversion Hd2 as [|? ? Hd4 Hd5]; subst. repeat split; auto.
      - eapply pre_distinct; eauto.
      - intros a x Ha Hx. assert (Hoka : vok a) by (eapply pre_allok; eauto).
        assert (Hla : lookup (elems b') a = Some a).
        { apply lookup_In; auto. eapply pre_distinct; eauto. eapply pre_allok; eauto. }
        rewrite Hlk in Hla by auto. apply lookup_Some in Hla as [Hin _].
        apply in_app_or in Hin as [Hin|[<-|[]]]; auto.
        apply Hd3; auto. right; auto. }
    { eapply allok_tl; eauto. }
    exists r. split; [|split; [|split]]; auto.
    + simpl. rewrite E1. simpl. exact E2.
    + intros w Hw. rewrite H4 by auto.
      replace (elems b ++ v :: data) with ((elems b ++ [v]) ++ data) by (rewrite <- app_assoc; auto).
      rewrite !lookup_app. rewrite Hlk by auto. rewrite lookup_app. auto.
    + rewrite H5. simpl. lia.
Qed.

Lemma newBranchFrom_gen d fuel data :
  (d < maxTreeDepth -> addB d fuel) -> d <= maxTreeDepth ->
  distinct data -> allok data -> 3 <= length data ->
  exists r, newBranchFrom fuel d data = Ok r /\ wf d r /\
    (forall w, vok w -> lookup (elems r) w = lookup data w) /\ length (elems r) = length data.
Proof.
  intros HB Hd Hdis Hok Hlen. unfold newBranchFrom, newBranchFrom_with.
  destruct (Nat.leb_spec maxTreeDepth d) as [Hm|Hm].
  - exists (Twig data). repeat split; auto. constructor; auto. lia.
  - destruct (newBranchFrom_fold d fuel data (newBranch emptyPacker)) as (r & E1 & Hr & H1 & H2); auto.
    + apply pre_empty; auto.
    + rewrite elems_empty. auto.
    + exists r. rewrite elems_empty in *. simpl in *. repeat split; auto.
      apply pre_wf; auto. lia.
Qed.

Lemma distinct3 (a b v : T) :
  veq a b = false -> veq a v = false -> veq b v = false -> distinct [a; b; v].
Proof.
  intros H1 H2 H3. repeat constructor; intros x; simpl; intuition (subst; auto).
Qed.

Lemma addFast_branch d fuel n v :
  d < maxTreeDepth -> addN (S d) fuel -> pre d n -> vok v ->
  exists r m, addFast (S fuel) n v d (newHasher v d) = Ok (r, m) /\ pre d r /\
    addres rhs (elems n) v (elems r) m.
Proof.
  intros Hd HN Hpre Hv. pose proof (pre_allok _ _ Hpre) as Hok.
  inversion Hpre as [d' mk data _ Hlen Hm Hch Hp]; subst d' n.
  rewrite elems_branch in Hok.
  assert (Hi : digit d v < fanout) by apply digit_lt.
  simpl addFast. fold (digit d v).
  destruct (child data (digit d v)) as [c|] eqn:Ec.
  - rewrite <- newHasher_S.
    destruct (HN c v) as (r & m & E1 & Hr & Ha); eauto.
    rewrite E1. simpl bind. do 2 eexists. split; [reflexivity|].
    assert (Hdig : forall e, In e (elems r) -> digit d e = digit d v).
    { apply (addres_digit rhs d (elems c) v (elems r) m); eauto using wf_allok, wf_distinct.
      - apply cfok_rhs.
      - intros e He. apply (Hp _ e). rewrite Ec; auto. }
    split.
    + apply pre_set; auto.
    + unfold newBranch, setNonNilChild; simpl fst; simpl snd. rewrite !elems_branch.
      eapply addres_branch; eauto. apply cfok_rhs.
  - do 2 eexists. split; [reflexivity|]. split.
    + apply pre_set; auto.
      * constructor; auto.
      * intros e [<-|[]]; auto.
    + unfold newBranch, setNonNilChild; simpl fst; simpl snd. rewrite !elems_branch.
      apply addres_branch_new; auto.
Qed.

(** Insertion into a list node (leaf or twig): shared facts. *)
Lemma addres_replace cf l1 e l2 (v : T) :
  cfok cf -> distinct (l1 ++ e :: l2) -> allok (l1 ++ e :: l2) -> vok v -> veq e v = true ->
  addres cf (l1 ++ e :: l2) v (l1 ++ cf e v :: l2) 1.
Proof.
  intros Hcf Hd Hok Hv Hq. repeat split.
  - intros w Hw. apply replace_upd; auto.
  - rewrite !app_length; simpl. lia.
  - unfold hit.
    assert (lookup (l1 ++ e :: l2) v = Some e) as ->; auto.
    apply lookup_iff; auto. split; auto. apply in_or_app; right; left; auto.
Qed.

Lemma addres_snoc cf l (v : T) :
  allok l -> vok v -> lookup l v = None -> addres cf l v (l ++ [v]) 0.
Proof.
  intros Hok Hv Hn. repeat split.
  - intros w Hw. apply snoc_upd; auto.
  - rewrite app_length; simpl; lia.
  - unfold hit; rewrite Hn; auto.
Qed.

Lemma addres_perm cf l v r r' m :
  (forall w, vok w -> lookup r w = lookup r' w) -> length r = length r' ->
  addres cf l v r' m -> addres cf l v r m.
Proof.
  intros H1 H2 (H3 & H4 & H5). repeat split; auto.
  - intros w Hw. rewrite H1; auto.
  - rewrite H2; auto.
Qed.

Lemma replace_ok cf l1 e l2 (v : T) :
  cfok cf -> distinct (l1 ++ e :: l2) -> allok (l1 ++ e :: l2) -> vok v -> veq e v = true ->
  distinct (l1 ++ cf e v :: l2) /\ allok (l1 ++ cf e v :: l2).
Proof.
  intros Hcf Hd Hok Hv Hq.
  assert (Hoke : vok e) by (apply Hok; apply in_or_app; right; left; auto).
  destruct (Hcf e v) as [Hc1 Hc2]; auto. split.
  - eapply replace_distinct; eauto. apply (veq_trans e v _); auto. apply veq_sym; auto.
  - intros x Hx. apply in_app_or in Hx as [Hx|[<-|Hx]]; auto; apply Hok; apply in_or_app; auto. right; right; auto.
Qed.

Lemma addFast_spec j d fuel :
  (d + j)%nat = maxTreeDepth ->
  ((2 * j <= fuel)%nat -> addB d fuel) /\ ((2 * j + 1 <= fuel)%nat -> addN d fuel).
Proof.
  revert d fuel; induction j as [|j IH]; intros d fuel Hj.
  - split.
    + intros Hf n v Hpre. inversion Hpre; subst. lia.
    + intros Hf n v Hwf Hv. destruct fuel as [|fuel]; [lia|].
      inversion Hwf as [d' a Hd Ha|d' a b Hd Ha Hb Hab|d' l Hd Hl Hok Hdis|d' mk data Hd]; subst d' n; try lia; simpl.
      * destruct (veq a v) eqn:Eq; do 2 eexists; (split; [reflexivity|]).
        -- split; [constructor; auto|].
           apply (addres_replace rhs [] a [] v); auto; try apply cfok_rhs.
           ++ repeat constructor; intros b [].
           ++ intros e [<-|[]]; auto.
        -- split; [constructor; auto|].
           apply (addres_snoc rhs [a] v); auto.
           ++ intros e [<-|[]]; auto.
           ++ unfold lookup; simpl; rewrite Eq; auto.
      * assert (Hd2 : distinct [a; b]) by (repeat constructor; intros x; simpl; intuition (subst; auto)).
        assert (Hok2 : allok [a; b]) by (intros e [<-|[<-|[]]]; auto).
        destruct (veq a v) eqn:Eq1; [|destruct (veq b v) eqn:Eq2].
        -- do 2 eexists; (split; [reflexivity|]). split.
           ++ constructor; auto. rewrite <- Hab. apply veq_trans_l; auto.
           ++ apply (addres_replace rhs [] a [b] v); auto; apply cfok_rhs.
        -- do 2 eexists; (split; [reflexivity|]). split.
           ++ constructor; auto.
           ++ apply (addres_replace rhs [a] b [] v); auto; apply cfok_rhs.
        -- destruct (newBranchFrom_gen d fuel [a; b; v]) as (r & E1 & Hr & H1 & H2); auto; try lia.
           ++ apply distinct3; auto.
           ++ intros e [<-|[<-|[<-|[]]]]; auto.
           ++ unfold newBranchFrom in E1. rewrite E1. simpl. do 2 eexists; split; [reflexivity|].
              split; auto.
              apply addres_perm with (r' := [a; b] ++ [v]); auto.
              apply addres_snoc; auto. unfold lookup; simpl. rewrite Eq1, Eq2; auto.
      * destruct (replaceFirst (fun e => veq e v) (fun _ => v) l) as [l'|] eqn:Er.
        -- apply replaceFirst_Some in Er as (l1 & e & l2 & -> & -> & Hf2).
           apply find_some in Hf2 as [_ Hq].
           do 2 eexists; split; [reflexivity|].
           destruct (replace_ok rhs l1 e l2 v) as [Hr1 Hr2]; auto; [apply cfok_rhs|].
           split.
           ++ constructor; auto. rewrite app_length in *; simpl in *; auto.
           ++ apply (addres_replace rhs l1 e l2 v); auto. apply cfok_rhs.
        -- apply replaceFirst_None in Er.
           destruct (Nat.leb_spec maxTreeDepth d) as [Hm|Hm]; [|lia].
           do 2 eexists; split; [reflexivity|]. split.
           ++ constructor; auto.
              ** rewrite app_length; simpl; lia.
              ** apply allok_app; split; auto. intros e [<-|[]]; auto.
              ** apply snoc_distinct; auto. apply lookup_None; auto.
           ++ apply addres_snoc; auto.
  - destruct (IH (S d) (pred fuel)) as [_ IHN]; [lia|].
    destruct (IH (S d) (pred (pred fuel))) as [_ IHN2]; [lia|].
    assert (HB : (2 * S j <= fuel)%nat -> addB d fuel).
    { intros Hf n v Hpre Hv. destruct fuel as [|fuel]; [lia|].
      apply addFast_branch; auto; [inversion Hpre; auto|]. apply IHN. simpl. lia. }
    split; auto.
    intros Hf n v Hwf Hv.
    assert (HB2 : addB d (pred fuel)).
    { intros n' v' Hpre Hv'. destruct fuel as [|[|fuel]]; [lia|lia|].
      apply addFast_branch; auto; [inversion Hpre; auto|]. apply IHN2. simpl. lia. }
    destruct fuel as [|fuel]; [lia|]. simpl in HB2.
    inversion Hwf as [d' a Hd Ha|d' a b Hd Ha Hb Hab|d' l Hd Hl Hok Hdis|d' mk data Hd Hlen Hm Hch Hp Hl]; subst d' n; try lia.
    + simpl. destruct (veq a v) eqn:Eq; do 2 eexists; (split; [reflexivity|]).
      * split; [constructor; auto|].
        apply (addres_replace rhs [] a [] v); auto; try apply cfok_rhs.
        -- repeat constructor; intros b [].
        -- intros e [<-|[]]; auto.
      * split; [constructor; auto|].
        apply (addres_snoc rhs [a] v); auto.
        -- intros e [<-|[]]; auto.
        -- unfold lookup; simpl; rewrite Eq; auto.
    + assert (Hd2 : distinct [a; b]) by (repeat constructor; intros x; simpl; intuition (subst; auto)).
      assert (Hok2 : allok [a; b]) by (intros e [<-|[<-|[]]]; auto).
      simpl. destruct (veq a v) eqn:Eq1; [|destruct (veq b v) eqn:Eq2].
      * do 2 eexists; (split; [reflexivity|]). split.
        -- constructor; auto. rewrite <- Hab. apply veq_trans_l; auto.
        -- apply (addres_replace rhs [] a [b] v); auto; apply cfok_rhs.
      * do 2 eexists; (split; [reflexivity|]). split.
        -- constructor; auto.
        -- apply (addres_replace rhs [a] b [] v); auto; apply cfok_rhs.
      * destruct (newBranchFrom_gen d fuel [a; b; v]) as (r & E1 & Hr & H1 & H2); auto; try lia.
        -- apply distinct3; auto.
        -- intros e [<-|[<-|[<-|[]]]]; auto.
        -- unfold newBranchFrom in E1. rewrite E1. simpl. do 2 eexists; split; [reflexivity|].
           split; auto.
           apply addres_perm with (r' := [a; b] ++ [v]); auto.
           apply addres_snoc; auto. unfold lookup; simpl. rewrite Eq1, Eq2; auto.
    + destruct (HB ltac:(lia) (Branch mk data) v) as (r & m & E1 & Hr & Ha); auto.
      { constructor; auto. }
      exists r, m. split; auto. split; auto.
      apply pre_wf; auto. destruct Ha as (_ & H2 & H3).
      unfold hit in H3. destruct (isSome _); subst m; lia.
Qed.

(** Enough fuel for every operation that inserts at depth [d]. *)
Definition fuelAt (d : nat) : nat := 2 * (maxTreeDepth - d) + 1.

Lemma addFast_wf d fuel n v :
  fuelAt d <= fuel -> wf d n -> vok v ->
  exists r m, addFast fuel n v d (newHasher v d) = Ok (r, m) /\ wf d r /\
    addres rhs (elems n) v (elems r) m.
Proof.
  intros Hf Hwf Hv. pose proof (wf_depth _ _ Hwf). unfold fuelAt in Hf.
  destruct (addFast_spec (maxTreeDepth - d) d fuel) as [_ HN]; [lia|].
  apply HN; auto; lia.
Qed.

Lemma newBranchFrom_wf d fuel data :
  2 * (maxTreeDepth - d) <= fuel -> d <= maxTreeDepth -> distinct data -> allok data -> 3 <= length data ->
  exists r, newBranchFrom fuel d data = Ok r /\ wf d r /\
    (forall w, vok w -> lookup (elems r) w = lookup data w) /\ length (elems r) = length data.
Proof.
  intros Hf Hd Hdis Hok Hl.
  apply newBranchFrom_gen; auto. intros Hlt.
  destruct (addFast_spec (maxTreeDepth - d) d fuel) as [HB _]; [lia|]. apply HB; auto.
Qed.

(** ** Canonical *)

Definition canon_res (d : nat) (l : list T) (o : option node) : Prop :=
  wfo vok d o /\ (forall w, vok w -> lookup (elemso o) w = lookup l w) /\
  length (elemso o) = length l.

Lemma canonicalTwig_wf d fuel l :
  2 * (maxTreeDepth - d) <= fuel -> d <= maxTreeDepth -> distinct l -> allok l ->
  exists o, canonicalTwig fuel d l = Ok o /\ canon_res d l o.
Proof.
  intros Hf Hd Hdis Hok. unfold canonicalTwig, canon_res.
  destruct l as [|a [|b [|c l]]].
  - exists None. split; auto. split; [apply wfo_None|auto].
  - exists (Some (Leaf1 a)). split; auto. split; [|auto].
    apply wfo_Some. constructor; auto. apply Hok; left; auto.
  - exists (Some (Leaf2 a b)). split; auto. split; [|auto].
    apply wfo_Some. inversion Hdis; subst. constructor; auto; try (apply Hok; simpl; auto).
    apply H1; left; auto.
  - set (l3 := a :: b :: c :: l) in *. assert (Hl : 3 <= length l3) by (simpl; lia).
    destruct ((length l3 <=? maxLeafLen) || (64 <=? d * fb)) eqn:Eb.
    + exists (Some (Twig l3)). split; auto. split; [|auto].
      apply wfo_Some. constructor; auto.
      apply orb_true_iff in Eb as [Eb|Eb]; apply Nat.leb_le in Eb.
      * unfold maxLeafLen in Eb; lia.
      * destruct (Nat.lt_ge_cases d maxTreeDepth) as [Hlt|]; [|lia].
        apply lt_maxTreeDepth_bits in Hlt. lia.
    + destruct (newBranchFrom_wf d fuel l3) as (r & E1 & Hr & H1 & H2); auto.
      rewrite E1. simpl. exists (Some r). split; auto. split; auto. apply wfo_Some; auto.
Qed.

Lemma canonicalTwig_max fuel d l :
  maxTreeDepth <= d -> 3 <= length l -> canonicalTwig fuel d l = Ok (Some (Twig l)).
Proof.
  intros Hd Hl. unfold canonicalTwig. destruct l as [|a [|b [|c l]]]; simpl in Hl; try lia.
  assert (64 <= d * fb).
  { pose proof maxTreeDepth_bits. pose proof fb_pos. nia. }
  destruct (Nat.leb_spec 64 (d * fb)); [|lia]. rewrite orb_true_r. reflexivity.
Qed.

Lemma appendTo_spec cap (n : node) :
  forall dest, length dest <= cap ->
  appendTo cap n dest =
    if cap <? length dest + length (elems n) then None else Some (dest ++ elems n).
Proof.
  revert n. fix IH 1. intros n dest Hdest. destruct n as [a|a b|l|m data].
  - simpl. reflexivity.
  - simpl. reflexivity.
  - simpl. reflexivity.
  - simpl appendTo. rewrite elems_branch.
    revert dest Hdest.
    induction data as [|o data IHd]; intros dest Hdest.
    + simpl. rewrite Nat.add_0_r, app_nil_r. destruct (Nat.ltb_spec cap (length dest)); [lia|auto].
    + destruct o as [c|].
      * rewrite IH by auto. simpl flat_map. rewrite app_length.
        destruct (Nat.ltb_spec cap (length dest + length (elems c))).
        -- destruct (Nat.ltb_spec cap (length dest + (length (elems c) + length (flat_map elemso data)))); auto. lia.
        -- rewrite IHd by (rewrite app_length; lia). rewrite app_length, app_assoc, Nat.add_assoc. reflexivity.
      * rewrite IHd by auto. reflexivity.
Qed.

(** Canonical form of a branch whose children are well-formed. *)
Lemma canonical_branch fuel d data :
  d < maxTreeDepth -> length data = fanout ->
  (forall i c, child data i = Some c -> wf (S d) c) -> placed d data ->
  exists o, canonical fuel d (Branch (updateMask data) data) = Ok o /\
    wfo vok d o /\ elemso o = flat_map elemso data.
Proof.
  intros Hd Hlen Hc Hp.
  assert (Hpre : pre d (Branch (updateMask data) data)) by (constructor; auto).
  pose proof (pre_allok _ _ Hpre) as Hok. pose proof (pre_distinct _ _ Hpre) as Hdis.
  rewrite elems_branch in *.
  unfold canonical. rewrite appendTo_spec by (simpl; lia). rewrite elems_branch.
  simpl length. unfold maxLeafLen.
  destruct (Nat.ltb_spec 2 (0 + length (flat_map elemso data))) as [Hl|Hl].
  - exists (Some (Branch (updateMask data) data)). split; auto. split.
    + apply wfo_Some. apply pre_wf; auto. rewrite elems_branch. simpl in Hl; lia.
    + apply (elems_branch (updateMask data)).
  - simpl app. destruct (flat_map elemso data) as [|a [|b [|c l]]] eqn:El; simpl in Hl; try lia; simpl.
    + exists None. split; auto. split; auto. apply wfo_None.
    + exists (Some (Leaf1 a)). split; auto. split; auto. apply wfo_Some. constructor; [lia|apply Hok; left; auto].
    + exists (Some (Leaf2 a b)). split; auto. split; auto. apply wfo_Some.
      inversion Hdis; subst. constructor; [lia|apply Hok; left; auto|apply Hok; right; left; auto|].
      apply H1; left; auto.
Qed.

(** A canonical node is its own canonical form. *)
Lemma canonical_wf fuel d n : wf d n -> canonical fuel d n = Ok (Some n).
Proof.
  intros H. inversion H as [d' a Hd Ha|d' a b Hd Ha Hb Hab|d' l Hd Hl Hok Hdis|d' mk data Hd Hlen Hm Hch Hp Hl]; subst d' n; auto.
  - apply canonicalTwig_max; auto. lia.
  - unfold canonical. rewrite appendTo_spec by (simpl; lia).
    destruct (Nat.ltb_spec maxLeafLen (length (@nil T) + length (elems (Branch mk data)))); auto.
    unfold maxLeafLen in *. simpl length in *. lia.
Qed.

(** ** Add and With *)

Lemma add_wf j : forall d fuel args n v,
  (d + j)%nat = maxTreeDepth -> (2 * j + 1 <= fuel)%nat ->
  c_eq args = veq -> cfok (c_f args) -> wf d n -> vok v ->
  exists r m, add fuel args n v d (newHasher v d) = Ok (r, m) /\ wf d r /\
    addres (c_f args) (elems n) v (elems r) m.
Proof.
  induction j as [|j IH]; intros d fuel args n v Hj Hfuel Heq Hcf Hwf Hv;
    (destruct fuel as [|fuel]; [lia|]);
    inversion Hwf as [d' a Hd Ha|d' a b Hd Ha Hb Hab|d' l Hd Hl Hok Hdis|d' mk data Hd Hlen Hm Hch Hp Hl];
    subst d' n; try lia; simpl; rewrite ?Heq.
  1,4: (* leaf1 *)
    destruct (veq a v) eqn:Eq; do 2 eexists; (split; [reflexivity|]);
    [ split; [constructor; auto; apply Hcf; auto|];
      apply (addres_replace (c_f args) [] a [] v); auto;
      [ repeat constructor; intros b [] | intros e [<-|[]]; auto ]
    | split; [constructor; auto|];
      apply (addres_snoc (c_f args) [a] v); auto;
      [ intros e [<-|[]]; auto | unfold lookup; simpl; rewrite Eq; auto ] ].
  1,3: (* leaf2 *)
    assert (Hd2 : distinct [a; b]) by (repeat constructor; intros x; simpl; intuition (subst; auto));
    assert (Hok2 : allok [a; b]) by (intros e [<-|[<-|[]]]; auto);
    (destruct (veq a v) eqn:Eq1; [|destruct (veq b v) eqn:Eq2]);
    [ do 2 eexists; (split; [reflexivity|]); split;
      [ destruct (replace_ok (c_f args) [] a [b] v) as [Hr1 Hr2]; auto;
        inversion Hr1; subst; constructor; auto; [apply Hr2; left; auto | apply H1; left; auto]
      | apply (addres_replace (c_f args) [] a [b] v); auto ]
    | do 2 eexists; (split; [reflexivity|]); split;
      [ destruct (replace_ok (c_f args) [a] b [] v) as [Hr1 Hr2]; auto;
        inversion Hr1; subst; constructor; auto; [apply Hr2; right; left; auto | apply H1; left; auto]
      | apply (addres_replace (c_f args) [a] b [] v); auto ]
    | destruct (newBranchFrom_wf d fuel [a; b; v]) as (r & E1 & Hr & H1 & H2); auto; try lia;
      [ apply distinct3; auto
      | intros e [<-|[<-|[<-|[]]]]; auto
      | rewrite E1; simpl; do 2 eexists; split; [reflexivity|]; split; auto;
        apply addres_perm with (r' := [a; b] ++ [v]); auto;
        apply addres_snoc; auto; unfold lookup; simpl; rewrite Eq1, Eq2; auto ] ].
  - (* twig *)
    destruct (replaceFirst (fun e => veq e v) (fun e => c_f args e v) l) as [l'|] eqn:Er.
    + apply replaceFirst_Some in Er as (l1 & e & l2 & -> & -> & Hf2).
      apply find_some in Hf2 as [_ Hq].
      do 2 eexists; split; [reflexivity|].
      destruct (replace_ok (c_f args) l1 e l2 v) as [Hr1 Hr2]; auto.
      split.
      * constructor; auto. rewrite app_length in *; simpl in *; auto.
      * apply (addres_replace (c_f args) l1 e l2 v); auto.
    + apply replaceFirst_None in Er.
      destruct (Nat.leb_spec maxTreeDepth d) as [Hm|Hm]; [|lia].
      do 2 eexists; split; [reflexivity|]. split.
      * constructor; auto.
        -- rewrite app_length; simpl; lia.
        -- apply allok_app; split; auto. intros e [<-|[]]; auto.
        -- apply snoc_distinct; auto. apply lookup_None; auto.
      * apply addres_snoc; auto.
  - (* branch *)
    fold (digit d v).
    pose proof (wf_allok _ _ Hwf) as Hok. rewrite elems_branch in Hok.
    assert (Hi : digit d v < fanout) by apply digit_lt.
    assert (Hpre : pre d (Branch mk data)) by (constructor; auto).
    assert (Hfin : forall r m, pre d r -> addres (c_f args) (elems (Branch mk data)) v (elems r) m -> wf d r).
    { intros r m Hr (_ & H2 & H3). apply pre_wf; auto.
      unfold hit in H3. destruct (isSome _); subst m; lia. }
    destruct (child data (digit d v)) as [c|] eqn:Ec.
    + rewrite <- newHasher_S.
      destruct (IH (S d) fuel args c v) as (r & m & E1 & Hr & Ha); eauto; try lia.
      rewrite E1. simpl bind.
      assert (Hdig : forall e, In e (elems r) -> digit d e = digit d v).
      { apply (addres_digit (c_f args) d (elems c) v (elems r) m); eauto using wf_allok, wf_distinct.
        intros e He. apply (Hp _ e). rewrite Ec; auto. }
      assert (Hpr : pre d (newBranch (setNonNilChild (mk, data) (digit d v) (Some r)))) by (apply pre_set; auto).
      assert (Har : addres (c_f args) (elems (Branch mk data)) v
                (elems (newBranch (setNonNilChild (mk, data) (digit d v) (Some r)))) m).
      { unfold newBranch, setNonNilChild; simpl fst; simpl snd. rewrite !elems_branch.
        eapply addres_branch; eauto. }
      do 2 eexists. split; [reflexivity|]. split; eauto.
    + assert (Hpr : pre d (newBranch (setNonNilChild (mk, data) (digit d v) (Some (Leaf1 v))))).
      { apply pre_set; auto.
        - constructor; auto.
        - intros e [<-|[]]; auto. }
      assert (Har : addres (c_f args) (elems (Branch mk data)) v
                (elems (newBranch (setNonNilChild (mk, data) (digit d v) (Some (Leaf1 v))))) 0).
      { unfold newBranch, setNonNilChild; simpl fst; simpl snd. rewrite !elems_branch.
        apply addres_branch_new; auto. }
      do 2 eexists. split; [reflexivity|]. split; eauto.
Qed.

(** On canonical tries the persistent insertion builds the same trie as the in-place one. *)
Lemma with_add fuel : forall args n v d h,
  c_eq args = veq -> wf d n -> with_ fuel args n v d h = add fuel args n v d h.
Proof.
  induction fuel as [|fuel IH]; intros args n v d h Heq Hwf; auto.
  inversion Hwf as [d' a Hd Ha|d' a b Hd Ha Hb Hab|d' l Hd Hl Hok Hdis|d' mk data Hd Hlen Hm Hch Hp Hl];
    subst d' n; simpl; auto.
  - destruct (replaceFirst _ _ l) as [l'|] eqn:Er; auto.
    rewrite canonicalTwig_max by (try rewrite app_length; simpl; lia).
    destruct (Nat.leb_spec maxTreeDepth d) as [Hm|Hm]; [|lia]. reflexivity.
  - destruct (child data (h_hash h)) as [c|] eqn:Ec; auto.
    rewrite IH by eauto. reflexivity.
Qed.

Lemma withFast_with g fuel : forall n v d h,
  withFast fuel n v d h = with_ fuel (mkCombineArgs g veq rhs) n v d h.
Proof.
  induction fuel as [|fuel IH]; intros n v d h; auto.
  destruct n as [a|a b|l|mk data]; simpl; auto.
  destruct (child data (h_hash h)) as [c|]; auto. rewrite IH. reflexivity.
Qed.

Lemma with_wf d fuel args n v :
  fuelAt d <= fuel -> c_eq args = veq -> cfok (c_f args) -> wf d n -> vok v ->
  exists r m, with_ fuel args n v d (newHasher v d) = Ok (r, m) /\ wf d r /\
    addres (c_f args) (elems n) v (elems r) m.
Proof.
  intros Hf Heq Hcf Hwf Hv. rewrite with_add by auto.
  pose proof (wf_depth _ _ Hwf). unfold fuelAt in Hf.
  apply (add_wf (maxTreeDepth - d)); auto; lia.
Qed.

Lemma withFast_wf d fuel n v :
  fuelAt d <= fuel -> wf d n -> vok v ->
  exists r m, withFast fuel n v d (newHasher v d) = Ok (r, m) /\ wf d r /\
    addres rhs (elems n) v (elems r) m.
Proof.
  intros Hf Hwf Hv. rewrite (withFast_with NonParallel).
  apply (with_wf d fuel (mkCombineArgs NonParallel veq rhs)); auto. apply cfok_rhs.
Qed.

Lemma add_wf' d fuel args n v :
  fuelAt d <= fuel -> c_eq args = veq -> cfok (c_f args) -> wf d n -> vok v ->
  exists r m, add fuel args n v d (newHasher v d) = Ok (r, m) /\ wf d r /\
    addres (c_f args) (elems n) v (elems r) m.
Proof.
  intros Hf Heq Hcf Hwf Hv. pose proof (wf_depth _ _ Hwf). unfold fuelAt in Hf.
  apply (add_wf (maxTreeDepth - d)); auto; lia.
Qed.

(** ** Get *)

Lemma get_wf fuel : forall d n v,
  wf d n -> vok v -> maxTreeDepth - d < fuel ->
  get fuel n v (newHasher v d) = Ok (lookup (elems n) v).
Proof.
  induction fuel as [|fuel IH]; intros d n v Hwf Hv Hf; [lia|].
  pose proof (wf_allok _ _ Hwf) as Hok0.
  inversion Hwf as [d' a Hd Ha|d' a b Hd Ha Hb Hab|d' l Hd Hl Hok Hdis|d' mk data Hd Hlen Hm Hch Hp Hl];
    subst d' n; simpl get; try reflexivity.
  - fold (digit d v). rewrite elems_branch in *. rewrite (lookup_placed d) by auto.
    destruct (child data (digit d v)) as [c|] eqn:Ec; auto.
    rewrite <- newHasher_S. simpl elemso. apply IH; eauto. lia.
Qed.

End NodeAdd.
