(** * HeapRep: sets share nodes; reading them, and what leaves them unchanged.

    [rep h p n]: the object at [p] holds the node [n]. Nodes may be shared. Every twig lies within the claimed slots of
    its array.
    [kept h h']: objects are only added, and claimed slots of arrays keep their values.
    [sim h m r Rel]: if [m], started in [h], overwrites no claimed slot, it keeps everything and its outcome agrees with
    the outcome [r] of the pure model. *)
From Verif Require Import Base Bits Env EnvFacts Node NodeWf NodeAdd NodeRemove HeapModel HeapFrame HeapOwn.
Local Open Scope nat_scope.

Section Rep.
Context {E : Env} {T : Type} {K : Key T} (grow : nat -> nat -> nat).
Notation obj := (obj (T := T)).
Notation heap := (heap (T := T)).
Notation array := (array (T := T)).
Notation M := (M (T := T)).
Notation node := (node T).
Local Opaque maxTreeDepth fanout fb.

(** The slice [(r, len)] has the elements [l]. *)
Definition holds (h : heap) (r : nat) (l : list T) : Prop :=
  exists a, nth_error (h_arrs h) r = Some a /\ length l <= a_used a /\ a_used a <= length (a_slots a) /\
    firstn (length l) (a_slots a) = l.

Inductive rep (h : heap) : nat -> node -> Prop :=
| rep_leaf1 p a : nth_error (h_objs h) p = Some (OLeaf1 a) -> rep h p (Leaf1 a)
| rep_leaf2 p a b : nth_error (h_objs h) p = Some (OLeaf2 a b) -> rep h p (Leaf2 a b)
| rep_twig p r l : nth_error (h_objs h) p = Some (OTwig r (length l)) -> holds h r l -> rep h p (Twig l)
| rep_branch p m d ds : nth_error (h_objs h) p = Some (OBranch m d) -> reps h d ds -> rep h p (Branch m ds)
with reps (h : heap) : list (option nat) -> list (option node) -> Prop :=
| reps_nil : reps h [] []
| reps_none d ds : reps h d ds -> reps h (None :: d) (None :: ds)
| reps_some c n d ds : rep h c n -> reps h d ds -> reps h (Some c :: d) (Some n :: ds).

Scheme rep_ind2 := Minimality for rep Sort Prop with reps_ind2 := Minimality for reps Sort Prop.
Combined Scheme rep_mut from rep_ind2, reps_ind2.

Inductive repo (h : heap) : option nat -> option node -> Prop :=
| repo_none : repo h None None
| repo_some p n : rep h p n -> repo h (Some p) (Some n).

Lemma own_rep_mut (h : heap) :
  (forall p n L R, own h p n L R -> rep h p n) /\ (forall d ds L R, owns h d ds L R -> reps h d ds).
Proof.
  apply (own_mut h (fun p n L R => rep h p n) (fun d ds L R => reps h d ds)); try (intros; econstructor; eauto; fail).
  intros p r a l H1 H2 H3 H4. econstructor; eauto. exists a. split; auto. split; [lia|]. split; auto.
  rewrite H3. rewrite <- H4 at 1. rewrite firstn_length. lia.
Qed.
Definition own_rep h := proj1 (own_rep_mut h).

Lemma rep_lt h p n : rep h p n -> p < length (h_objs h).
Proof. inversion 1; subst; eapply nth_error_Some_lt; eauto. Qed.

Lemma reps_length h d ds : reps h d ds -> length d = length ds.
Proof. induction 1; cbn; auto. Qed.

Lemma reps_child h d ds i : reps h d ds -> repo h (childP d i) (child ds i).
Proof.
  intros H. revert i. induction H as [|d ds H IH|c n d ds H1 H2 IH]; intros [|i]; cbn; try constructor; auto.
  - apply (IH i).
  - apply (IH i).
Qed.

Lemma reps_set h d ds i x y : reps h d ds -> repo h x y -> reps h (set_nth d i x) (set_nth ds i y).
Proof.
  intros H Ho. revert i. induction H as [|d ds H IH|c n d ds H1 H2 IH]; intros [|i]; cbn; try constructor; auto;
    destruct Ho; constructor; auto.
Qed.

Lemma reps_empty h : reps h emptyDataP emptyData.
Proof. unfold emptyDataP, emptyData. induction fanout; cbn; constructor; auto. Qed.

Lemma holds_fun h r l l' : holds h r l -> holds h r l' -> length l = length l' -> l = l'.
Proof. intros (a & A1 & _ & _ & A4) (b & B1 & _ & _ & B4) HL. assert (a = b) by congruence. subst b. congruence. Qed.

Lemma rep_fun_mut h : (forall p n, rep h p n -> forall n', rep h p n' -> n = n') /\
  (forall d ds, reps h d ds -> forall ds', reps h d ds' -> ds = ds').
Proof.
  apply (rep_mut h (fun p n => forall n', rep h p n' -> n = n') (fun d ds => forall ds', reps h d ds' -> ds = ds')).
  - intros p a H n' H'. inversion H'; subst; congruence.
  - intros p a b H n' H'. inversion H'; subst; congruence.
  - intros p r l H Hl n' H'. inversion H' as [| |? r' l' Hp' Hl'|]; subst; try congruence.
    assert (r' = r /\ length l = length l') as [-> HL] by (split; congruence). f_equal. eapply holds_fun; eauto.
  - intros p m d ds H _ IH n' H'. inversion H' as [| | |? m' d' ds' Hp' Hl']; subst; try congruence.
    assert (m' = m /\ d' = d) as [-> ->] by (split; congruence). f_equal. auto.
  - intros ds' H'. inversion H'; auto.
  - intros d ds _ IH ds' H'. inversion H'; subst. f_equal. auto.
  - intros c n d ds _ IH1 _ IH2 ds' H'. inversion H'; subst. f_equal; auto. f_equal. auto.
Qed.
Definition rep_fun h := proj1 (rep_fun_mut h).
Definition reps_fun h := proj2 (rep_fun_mut h).

(** The masks agree. *)
Lemma updateMaskP_rep h d ds : reps h d ds -> updateMaskP d = updateMask ds.
Proof.
  intros H. unfold updateMaskP, updateMask. generalize 0, 0%N. induction H; intros i m; cbn; auto.
Qed.
Lemma setChildP_rep m d (ds : list (option node)) i x y : isSome x = isSome y ->
  setChildP (m, d) i x = (fst (setChild (m, ds) i y), set_nth d i x) /\ snd (setChild (m, ds) i y) = set_nth ds i y.
Proof. destruct x, y; cbn; try discriminate; auto. Qed.

(** ** Keeping *)

Definition kept (h h' : heap) : Prop :=
  (exists l, h_objs h' = h_objs h ++ l) /\
  (forall r a, nth_error (h_arrs h) r = Some a -> a_used a <= length (a_slots a) ->
     exists a', nth_error (h_arrs h') r = Some a' /\ a_used a <= a_used a' /\ a_used a' <= length (a_slots a') /\
       firstn (a_used a) (a_slots a') = firstn (a_used a) (a_slots a)).

Lemma kept_refl h : kept h h.
Proof. split; [exists []; rewrite app_nil_r; auto|]. intros r a H1 H2. exists a. auto. Qed.
Lemma kept_trans h1 h2 h3 : kept h1 h2 -> kept h2 h3 -> kept h1 h3.
Proof.
  intros [[l1 A1] A2] [[l2 B1] B2]. split; [exists (l1 ++ l2); rewrite app_assoc; congruence|].
  intros r a H1 H2. destruct (A2 r a H1 H2) as (a' & H3 & H4 & H5 & H6).
  destruct (B2 r a' H3 H5) as (a'' & H7 & H8 & H9 & H10). exists a''. split; auto. split; [lia|]. split; auto.
  rewrite <- H6. replace (a_used a) with (Nat.min (a_used a) (a_used a')) by lia.
  rewrite <- !firstn_firstn, H10. auto.
Qed.
Lemma kept_prefix h h' : (exists l, h_objs h' = h_objs h ++ l) -> (exists l, h_arrs h' = h_arrs h ++ l) -> kept h h'.
Proof.
  intros H1 [l H2]. split; auto. intros r a Ha Hu. exists a. split; auto. rewrite H2, nth_error_app1; auto.
  eapply nth_error_Some_lt; eauto.
Qed.
Lemma kept_add h h' : addonly h h' -> kept h h'.
Proof. intros (H1 & H2 & _). apply kept_prefix; auto. Qed.
Lemma kept_objs h h' : kept h h' -> length (h_objs h) <= length (h_objs h').
Proof. intros [[l ->] _]. rewrite app_length. lia. Qed.
Lemma kept_obj h h' p o : kept h h' -> nth_error (h_objs h) p = Some o -> nth_error (h_objs h') p = Some o.
Proof. intros [[l ->] _] H. rewrite nth_error_app1; auto. eapply nth_error_Some_lt; eauto. Qed.
Lemma holds_kept h h' r l : kept h h' -> holds h r l -> holds h' r l.
Proof.
  intros [_ Hk] (a & H1 & H2 & H3 & H4). destruct (Hk r a H1 H3) as (a' & H5 & H6 & H7 & H8).
  exists a'. split; auto. split; [lia|]. split; auto. rewrite <- H4 at 2.
  replace (length l) with (Nat.min (length l) (a_used a)) by lia. rewrite <- !firstn_firstn, H8. auto.
Qed.
Lemma rep_kept_mut h h' : kept h h' -> (forall p n, rep h p n -> rep h' p n) /\ (forall d ds, reps h d ds -> reps h' d ds).
Proof.
  intros Hk. apply (rep_mut h (fun p n => rep h' p n) (fun d ds => reps h' d ds)); try (intros; econstructor; eauto using kept_obj; fail).
  intros p r l H Hl. econstructor; [eapply kept_obj; eauto|]. eapply holds_kept; eauto.
Qed.
Lemma rep_kept h h' p n : kept h h' -> rep h p n -> rep h' p n.
Proof. intros H. apply (proj1 (rep_kept_mut h h' H)). Qed.
Lemma reps_kept h h' d ds : kept h h' -> reps h d ds -> reps h' d ds.
Proof. intros H. apply (proj2 (rep_kept_mut h h' H)). Qed.
Lemma repo_kept h h' o n : kept h h' -> repo h o n -> repo h' o n.
Proof. intros H [|p x Hp]; constructor. eapply rep_kept; eauto. Qed.

(** ** Simulation *)

Definition mono {A} (m : M A) : Prop := forall h, h_over h <= h_over (snd (m h)).
Lemma mono_safe {A} (m : M A) post : safe (fun _ => True) (fun _ => True) m post -> mono m.
Proof.
  intros H h. destruct (H h) as (_ & (_ & _ & _ & _ & Hov & _) & _); auto.
  intros p o _ _. destruct o; cbn; auto.
Qed.
Lemma mono_ret {A} (a : A) : mono (ret a).
Proof. intros h. cbn. auto. Qed.
Lemma mono_fail {A} (r : res A) : mono (fail r).
Proof. intros h. cbn. auto. Qed.
Lemma mono_bind {A B} (m : M A) (k : A -> M B) : mono m -> (forall a, mono (k a)) -> mono (bindM m k).
Proof.
  intros Hm Hk h. specialize (Hm h). unfold bindM. destruct (m h) as [[a| |] h']; cbn in *; auto.
  specialize (Hk a h'). lia.
Qed.
Lemma mono_alloc (o : obj) : mono (alloc o).
Proof. intros h. cbn. auto. Qed.
Lemma mono_load p : mono (load p).
Proof. intros h. unfold load. destruct (nth_error _ _); cbn; auto. Qed.
Lemma mono_elemsOf sl : mono (elemsOf sl).
Proof. eapply mono_safe. apply safe_elemsOf. Qed.
Lemma mono_newSlice data : mono (newSlice data).
Proof. eapply mono_safe. apply safe_newSlice. Qed.
Lemma mono_setSlot sl i v : mono (setSlot sl i v).
Proof. eapply mono_safe. apply safe_setSlot. auto. Qed.

Definition agrees {A A'} (o : res A) (r : res A') (Rel : A -> A' -> Prop) : Prop :=
  match r with
  | Ok a' => exists a, o = Ok a /\ Rel a a'
  | Panic => o = Panic
  | Fuel => o = Fuel
  end.
Definition sim {A A'} (h : heap) (m : M A) (r : res A') (Rel : A -> A' -> heap -> Prop) : Prop :=
  h_over (snd (m h)) = h_over h ->
  kept h (snd (m h)) /\ agrees (fst (m h)) r (fun a a' => Rel a a' (snd (m h))).

Lemma sim_ret {A A'} h (a : A) (a' : A') (Rel : A -> A' -> heap -> Prop) : Rel a a' h -> sim h (ret a) (Ok a') Rel.
Proof. intros H _. cbn. split; [apply kept_refl|]. exists a. auto. Qed.
Lemma sim_panic {A A'} h (Rel : A -> A' -> heap -> Prop) : sim h (fail Panic) Panic Rel.
Proof. intros _. cbn. split; [apply kept_refl|]. reflexivity. Qed.
Lemma sim_fuel {A A'} h (Rel : A -> A' -> heap -> Prop) : sim h (fail Fuel) Fuel Rel.
Proof. intros _. cbn. split; [apply kept_refl|]. reflexivity. Qed.

Lemma sim_bind {A A' B B'} h (m : M A) (k : A -> M B) (r : res A') (k' : A' -> res B') Rel Rel' :
  sim h m r Rel -> mono m -> (forall a, mono (k a)) ->
  (forall a a' h1, kept h h1 -> Rel a a' h1 -> sim h1 (k a) (k' a') Rel') ->
  sim h (bindM m k) (bind r k') Rel'.
Proof.
  intros Hm Hmm Hmk Hk Hov. specialize (Hmm h). unfold sim, bindM in *. destruct (m h) as [o h1] eqn:E1. cbn [fst snd] in *.
  assert (Hov1 : h_over h1 = h_over h).
  { destruct o as [a| |]; cbn in *; auto. specialize (Hmk a h1). lia. }
  destruct (Hm Hov1) as [K1 A1]. destruct r as [a'| |]; cbn [agrees bind] in *.
  - destruct A1 as (a & -> & HR). destruct (Hk a a' h1 K1 HR) as [K2 A2]; [lia|]. split; auto. eapply kept_trans; eauto.
  - subst o. cbn in *. auto.
  - subst o. cbn in *. auto.
Qed.

(** A step whose outcome is known. *)
Lemma sim_run {A B B'} h (m : M A) (k : A -> M B) a h1 (r : res B') Rel :
  m h = (Ok a, h1) -> kept h h1 -> h_over h1 = h_over h -> sim h1 (k a) r Rel -> sim h (bindM m k) r Rel.
Proof.
  intros E1 K1 O1 H Hov. rewrite (bindM_ok _ _ _ _ _ E1) in *. destruct H as [K2 A2]; [lia|]. split; auto. eapply kept_trans; eauto.
Qed.
(** A step that only reads. *)
Lemma sim_read {A B B'} h (m : M A) (k : A -> M B) a (r : res B') Rel :
  m h = (Ok a, h) -> sim h (k a) r Rel -> sim h (bindM m k) r Rel.
Proof. intros E1. apply (sim_run _ _ _ _ _ _ _ E1); auto. apply kept_refl. Qed.
Lemma sim_weaken {A A'} h (m : M A) (r : res A') (Rel Rel' : A -> A' -> heap -> Prop) :
  sim h m r Rel -> (forall a a' h1, kept h h1 -> Rel a a' h1 -> Rel' a a' h1) -> sim h m r Rel'.
Proof.
  intros H Hw Hov. destruct (H Hov) as [K1 A1]. split; auto. destruct r; cbn in *; auto.
  destruct A1 as (x & Hx & HR). exists x. split; auto.
Qed.
(** The outcome of a reading step, whatever it is. *)
Lemma sim_reads {A B B'} h (m : M A) (k : A -> M B) (r : res A) (k' : A -> res B') Rel :
  m h = (r, h) -> (forall a, r = Ok a -> sim h (k a) (k' a) Rel) -> sim h (bindM m k) (bind r k') Rel.
Proof.
  intros E1 Hk. destruct r as [a| |]; cbn [bind].
  - eapply sim_read; eauto.
  - intros _. rewrite (bindM_panic _ _ _ _ E1). cbn. split; [apply kept_refl|reflexivity].
  - intros _. rewrite (bindM_fuel _ _ _ _ E1). cbn. split; [apply kept_refl|reflexivity].
Qed.

Lemma elemsOf_holds h r l : holds h r l -> elemsOf (r, length l) h = (Ok l, h).
Proof. intros (a & H1 & _ & _ & H4). eapply elemsOf_ok; eauto. Qed.

(** ** Allocation *)

Lemma kept_alloc h (o : obj) : kept h (mkHeap (h_objs h ++ [o]) (h_arrs h) (h_over h) (h_log h)).
Proof. apply kept_prefix; cbn; [exists [o]; auto|exists []; rewrite app_nil_r; auto]. Qed.
Lemma kept_newSlice h a : kept h (mkHeap (h_objs h) (h_arrs h ++ [a]) (h_over h) (h_log h)).
Proof. apply kept_prefix; cbn; [exists []; rewrite app_nil_r; auto|exists [a]; auto]. Qed.

Lemma sim_alloc {B B'} h (o : obj) (k : nat -> M B) (r : res B') Rel :
  (forall h1, kept h h1 -> nth_error (h_objs h1) (length (h_objs h)) = Some o -> h_arrs h1 = h_arrs h ->
     sim h1 (k (length (h_objs h))) r Rel) ->
  sim h (bindM (alloc o) k) r Rel.
Proof.
  intros H. eapply sim_run; [reflexivity|apply kept_alloc|reflexivity|]. apply H; [apply kept_alloc|cbn; apply nth_error_new|reflexivity].
Qed.
Lemma sim_newSlice {B B'} h data (k : slice -> M B) (r : res B') Rel :
  (forall h1, kept h h1 -> nth_error (h_arrs h1) (length (h_arrs h)) = Some (mkArray data (length data) (length data)) ->
     h_objs h1 = h_objs h -> sim h1 (k (length (h_arrs h), length data)) r Rel) ->
  sim h (bindM (newSlice data) k) r Rel.
Proof.
  intros H. eapply sim_run; [reflexivity|apply kept_newSlice|reflexivity|]. apply H; [apply kept_newSlice|cbn; apply nth_error_new|reflexivity].
Qed.
Lemma holds_new h r data : nth_error (h_arrs h) r = Some (mkArray data (length data) (length data)) -> holds h r data.
Proof. intros H. eexists. split; [exact H|]. cbn. split; auto. split; auto. apply firstn_all. Qed.

(** ** Reading *)

Lemma getH_rep fuel : forall h p n v hs, rep h p n -> getH fuel p v hs h = (get fuel n v hs, h).
Proof.
  induction fuel as [|k IH]; intros h p n v hs H; [reflexivity|]. cbn [getH get].
  inversion H as [p0 a Hp|p0 a b Hp|p0 r l Hp Hl|p0 m d ds Hp Hds]; subst; rewrite (bindM_ok _ _ _ _ _ (load_ok _ _ _ Hp)).
  - reflexivity.
  - reflexivity.
  - rewrite (bindM_ok _ _ _ _ _ (elemsOf_holds _ _ _ Hl)). reflexivity.
  - destruct (reps_child _ _ _ (h_hash hs) Hds); auto.
Qed.

Lemma has_atH_rep fuel h p n e d : rep h p n -> has_atH fuel p e d h = (has_at fuel n e d, h).
Proof.
  intros H. unfold has_atH, has_at, rmap. pose proof (getH_rep fuel h p n e (newHasher e d) H) as Hg.
  destruct (get fuel n e (newHasher e d)) as [o| |].
  - rewrite (bindM_ok _ _ _ _ _ Hg). reflexivity.
  - rewrite (bindM_panic _ _ _ _ Hg). reflexivity.
  - rewrite (bindM_fuel _ _ _ _ Hg). reflexivity.
Qed.

Lemma appendToH_rep j : forall d h p n cap dest fuel, maxTreeDepth <= d + j -> rep h p n -> shape true d n ->
  j * (fanout + 2) + 1 <= fuel -> appendToH fuel cap p dest h = (Ok (appendTo cap n dest), h).
Proof.
  induction j as [|j IH]; intros d h p n cap dest fuel Hd H Hs Hf; (destruct fuel as [|fuel]; [lia|]); cbn [appendToH];
    inversion H as [p0 a Hp|p0 a b Hp|p0 r l Hp Hl|p0 m da ds Hp Hds]; subst; rewrite (bindM_ok _ _ _ _ _ (load_ok _ _ _ Hp));
    try reflexivity; try (rewrite (bindM_ok _ _ _ _ _ (elemsOf_holds _ _ _ Hl)); reflexivity).
  - inversion Hs as [| | |? ? ? Hlim _ _]; subst. specialize (Hlim eq_refl). lia.
  - inversion Hs as [| | |? ? ? _ Hlen Hch]; subst.
    assert (Hlen' : length da = fanout) by (rewrite (reps_length _ _ _ Hds); auto).
    assert (Hf' : length da + 1 + (j * (fanout + 2) + 1) <= fuel) by lia.
    assert (Hch' : forall c, In (Some c) ds -> shape true (S d) c).
    { intros c Hc. apply In_nth with (d := None) in Hc as (i & _ & Hi). eapply Hch. exact Hi. }
    clear Hp Hlen Hlen' Hch Hs H Hf. cbn [appendTo]. revert dest fuel Hf'. induction Hds as [|da ds Hds IHds|c n da ds Hc Hds IHds]; intros dest fuel Hf;
      (destruct fuel as [|fuel]; [cbn in Hf; lia|]); cbn [length] in Hf; cbn [appendAllH].
    + reflexivity.
    + apply IHds; [|lia]. intros c Hc. apply Hch'. right; auto.
    + rewrite (bindM_ok _ _ _ _ _ (IH (S d) h c n cap dest fuel ltac:(lia) Hc (Hch' n (or_introl eq_refl)) ltac:(lia))).
      destruct (appendTo cap n dest); [|reflexivity]. apply IHds; [|lia]. intros x Hx. apply Hch'. right; auto.
Qed.

Lemma walk_rep d h p n cap dest : rep h p n -> shape true d n -> appendToH walkFuel cap p dest h = (Ok (appendTo cap n dest), h).
Proof.
  intros H Hs. apply (appendToH_rep maxTreeDepth d); auto; [lia|]. unfold walkFuel. lia.
Qed.

End Rep.
