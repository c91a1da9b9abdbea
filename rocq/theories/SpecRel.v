(** * SpecRel: lemmas behind properties C40, C41 and C42 (pkg/rel). *)
From Verif Require Import Base Bits Env EnvFacts Node NodeWf NodeAdd NodeRemove NodeBin NodeBin2 NodeUn Iter Tree TreeFacts
  SetApi SetFacts MapApi MapFacts GroupFacts Clash Reach Spec SpecSet SpecMap Rel RelFacts.

(** ** Vocabulary *)
Section Vocabulary.
Context {E : Env} {X V : Type} {KX : Key X} (kok : X -> Prop) {ZV : Zero V} {KV : Key V} (valok : V -> Prop).
Notation tuple := (gomap X V).
Notation relation := (set (gomap X V)).

(** The tuples and relations of the theorems. Every one that a program can obtain is among them
    ([c41_reach]), and so are the results of the functions of the package. *)
Definition Tup (t : tuple) : Prop := mvok kok valok t.
Definition Rel (r : relation) : Prop := sok (K := mapKey) Tup r.
(** The attribute sets among the arguments of Nest. *)
Definition AttrMap (AA : gomap X (set X)) : Prop := mok kok AA /\ vals_ok (sok kok) AA.

(** The value that Get finds. *)
Definition At {W} {ZW : Zero W} (t : gomap X W) (j : X) : option W := match m_get t j with Ok o => o | _ => None end.
(** Two attribute values, possibly absent, are equal. *)
Definition Same (a b : option V) : Prop :=
  match a, b with Some u, Some v => veq u v = true | None, None => True | _, _ => False end.
(** The tuple is the finite function [F]. *)
Definition TupleIs (x : tuple) (F : X -> option V) : Prop := forall j, kok j -> Same (At x j) (F j).
(** The attribute is in the list. *)
Definition among (attrs : list X) (j : X) : bool := existsb (fun k => veq k j) attrs.
(** The function restricted to some attributes, and to all others. *)
Definition Only (attrs : X -> bool) (F : X -> option V) (j : X) : option V := if attrs j then F j else None.
Definition Drop (attrs : X -> bool) (F : X -> option V) (j : X) : option V := if attrs j then None else F j.
(** The tuple's attributes are those of the list. *)
Definition HasAttrs (t : tuple) (hs : list X) : Prop :=
  forall j, kok j -> (exists v, At t j = Some v) <-> among hs j = true.
(** All tuples of the relation have these attributes. *)
Definition Uniform (s : relation) (hs : list X) : Prop :=
  (forall k, In k hs -> kok k) /\ forall t, Holds s t -> HasAttrs t hs.
(** No three different attributes have the same 64-bit hash. *)
Definition FewCollisions : Prop := forall a b c : X, kok a -> kok b -> kok c ->
  vhash a 0 = vhash b 0 -> vhash b 0 = vhash c 0 -> veq a b = true \/ veq b c = true \/ veq a c = true.

(** The tuples of the list, each updated by the next. *)
Definition Updated (es : list tuple) (j : X) : option V :=
  fold_left (fun acc t => match At t j with Some v => Some v | None => acc end) es None.


(** *** Nest and Unnest *)
Context {RV : RelVal X V}.

(** The attribute is in the set. *)
Definition inA (A : set X) (j : X) : bool := match s_has A j with Ok b => b | _ => false end.
(** The two tuples agree outside [attrs]. *)
Definition SameRest (attrs : X -> bool) (t u : tuple) : Prop :=
  forall j, kok j -> Same (Drop attrs (At t) j) (Drop attrs (At u) j).
(** [p] consists of the projections to [A] of the tuples of [s] that agree with [t] outside [attrs]. *)
Definition NestedAs (s : relation) (attrs : X -> bool) (A : set X) (t : tuple) (p : relation) : Prop :=
  Rel p /\ forall y, Tup y -> Has p y <->
    exists t', Holds s t' /\ SameRest attrs t' t /\ TupleIs y (Only (inA A) (At t')).
(** [x] is the tuple for the group of [t]: its attributes outside [attrs], and the nested relations (unless
    they are hidden by an attribute of the same name). *)
Definition NestTuple (s : relation) (attrs : X -> bool) (AA : gomap X (set X)) (t x : tuple) : Prop :=
  Tup x /\ forall j, kok j ->
    match Drop attrs (At t) j with
    | Some v => Same (At x j) (Some v)
    | None =>
        match At AA j with
        | Some A => exists p, At x j = Some (toAny p) /\ NestedAs s attrs A t p
        | None => At x j = None
        end
    end.

(** Nest(s, {a: A}): the tuple for the group of [t]. *)
Definition NestOne (s : relation) (a : X) (A : set X) (t x : tuple) : Prop :=
  Tup x /\ (forall j, kok j -> veq a j = false -> Same (At x j) (Drop (inA A) (At t) j)) /\
  exists p, At x a = Some (toAny p) /\ NestedAs s (inA A) A t p /\ s_isEmpty p = false.

(** [AA] is the map {a: A}. *)
Definition Single (AA : gomap X (set X)) (a : X) (A : set X) : Prop := AttrMap AA /\ kok a /\ sok kok A /\ forall k, kok k -> At AA k = if veq a k then Some A else None.
(** The new attribute is not among the remaining ones. *)
Definition Fresh (s : relation) (a : X) (A : set X) : Prop := forall t, Holds s t -> inA A a = true \/ At t a = None.

(** [y] is one of the tuples that the tuple [x] of the operand unnests to. *)
Definition UnnestTuple (a : X) (x y : tuple) : Prop :=
  match At x a with
  | None => TupleIs y (At x)
  | Some v => exists p b, v = toAny p /\ Holds p b /\
      (forall j u w, kok j -> veq a j = false -> At x j = Some u -> At b j = Some w -> Same (Some u) (Some w)) /\
      TupleIs y (fun j => match At b j with Some w => Some w | None => if veq a j then None else At x j end)
  end.
(** The attribute, if present, holds a relation, whose tuples have the same attributes in common
    with the rest of [x]. *)
Definition Nested (a : X) (x : tuple) : Prop :=
  forall v, At x a = Some v -> exists p, v = toAny p /\
    forall b b' j, Holds p b -> Holds p b' -> kok j -> veq a j = false -> At x j <> None -> At b j <> None -> At b' j <> None.

End Vocabulary.

Section SpecRel.
Local Opaque maxTreeDepth fanout fb.
Context {E : Env} {HE : EnvOk E} {X V : Type} {KX : Key X} {kok : X -> Prop} {KO : KeyOk KX kok} {ZV : Zero V}.
Context {KV : Key V} {valok : V -> Prop} {KVO : KeyOk KV valok}.
#[local] Existing Instance tupleKeyOk.
#[local] Existing Instance attrsKeyOk.

(** ** Bridges *)

Lemma at_mget t j : Tup kok valok t -> kok j -> At t j = mget t j.
Proof. intros [Ht _] Hj. unfold At. rewrite (m_get_ok (kok := kok)) by auto. auto. Qed.
Lemma at_attrs (AA : gomap X (set X)) j : AttrMap kok AA -> kok j -> At AA j = mget AA j.
Proof. intros [Ht _] Hj. unfold At. rewrite (m_get_ok (kok := kok)) by auto. auto. Qed.

Lemma tupleIs_meets x F : Tup kok valok x -> TupleIs kok x F <-> meets (kok := kok) x F.
Proof. intros Hx. split; intros H j Hj; specialize (H j Hj); [rewrite at_mget in H by auto|rewrite at_mget by auto]; auto. Qed.

Lemma hasAttrs_iff t hs : Tup kok valok t -> HasAttrs kok t hs <-> forall j, kok j -> isSome (mget t j) = hasAttr hs j.
Proof.
  intros Ht. split; intros H j Hj; specialize (H j Hj).
  - rewrite at_mget in H by auto. apply eq_true_iff_eq. change (hasAttr hs j) with (among hs j). rewrite <- H.
    destruct (mget t j); cbn; split; eauto; try discriminate. intros [? H']. discriminate.
  - rewrite at_mget by auto. change (among hs j) with (hasAttr hs j). rewrite <- H.
    destruct (mget t j); cbn; split; eauto; try discriminate. intros [? H']. discriminate.
Qed.

Lemma uniform_header s hs : Rel kok valok s -> Uniform kok s hs <-> header (kok := kok) s hs.
Proof.
  intros Hs. unfold Uniform, header. split; intros [H1 H2]; split; auto.
  - intros t Ht. apply hasAttrs_iff; [apply (sok_allok s Hs); auto|]. apply H2. apply (holds_In (vok := Tup kok valok)); auto.
  - intros t Ht. apply (holds_In (vok := Tup kok valok)) in Ht; auto. apply hasAttrs_iff; [apply (sok_allok s Hs); auto|]. auto.
Qed.

Lemma has_smem s x : Rel kok valok s -> Tup kok valok x -> Has s x <-> smem s x.
Proof. intros Hs Hx. apply (has_lookup (vok := Tup kok valok)); auto. Qed.
Lemma holds_sel s t : Rel kok valok s -> Holds s t <-> In t (sel s).
Proof. intros Hs. apply (holds_In (vok := Tup kok valok)); auto. Qed.
Lemma holds_tup s t : Rel kok valok s -> Holds s t -> Tup kok valok t.
Proof. intros Hs Ht. apply (holds_ok (vok := Tup kok valok)) in Ht; auto. Qed.
Lemma isEmpty_sel s : Rel kok valok s -> s_isEmpty s = true <-> sel s = [].
Proof. intros Hs. rewrite (s_isEmpty_ok (vok := Tup kok valok)) by auto. destruct (sel s); split; congruence. Qed.
Lemma isEmpty_sel' s : Rel kok valok s -> s_isEmpty s = false <-> sel s <> [].
Proof. intros Hs. rewrite (s_isEmpty_ok (vok := Tup kok valok)) by auto. destruct (sel s); split; congruence. Qed.

(** ** C40 *)

Lemma c40_join s t hs ht r : Rel kok valok s -> Rel kok valok t -> Uniform kok s hs -> Uniform kok t ht ->
  s_isEmpty s = true \/ s_isEmpty t = false -> r_join [s; t] = Ok r ->
  Rel kok valok r /\ Uniform kok r (hs ++ ht) /\
  forall x, Tup kok valok x -> Has r x <->
    HasAttrs kok x (hs ++ ht) /\ (exists a, m_project x hs = Ok a /\ Has s a) /\ (exists b, m_project x ht = Ok b /\ Has t b).
Proof.
  intros Hs Ht Us Ut He E1. apply uniform_header in Us; auto. apply uniform_header in Ut; auto.
  rewrite isEmpty_sel, isEmpty_sel' in He by auto.
  assert (E2 : r_join2 s t = Ok r) by (cbn [r_join foldM] in E1; destruct (r_join2 s t); auto).
  destruct (r_join2_ok s t hs ht r Hs Ht Us Ut He E2) as (Hr & Hh & HJ). split; auto. split; [apply uniform_header; auto|].
  intros x Hx. rewrite has_smem, HJ, joined_project by auto. rewrite hasAttrs_iff by auto.
  destruct (pr_ok x hs Hx) as (P1 & T1 & _); [apply Us|]. destruct (pr_ok x ht Hx) as (P2 & T2 & _); [apply Ut|].
  assert (HA : (forall j, kok j -> isSome (mget x j) = (hasAttr hs j || hasAttr ht j)%bool) <->
               (forall j, kok j -> isSome (mget x j) = hasAttr (hs ++ ht) j)).
  { unfold hasAttr. split; intros H j Hj; rewrite H by auto; [symmetry|]; apply existsb_app. }
  rewrite HA. split; intros (H0 & H1 & H2); (split; [auto|split]).
  - exists (pr x hs). split; auto. apply has_smem; auto.
  - exists (pr x ht). split; auto. apply has_smem; auto.
  - destruct H1 as (a & Ea & H1). rewrite P1 in Ea. injection Ea as <-. apply has_smem in H1; auto.
  - destruct H2 as (b & Eb & H2). rewrite P2 in Eb. injection Eb as <-. apply has_smem in H2; auto.
Qed.

(** [ps]: the operands with their headers. *)
Lemma c40_joinN (ps : list (set (gomap X V) * list X)) r : (forall s hs, In (s, hs) ps -> Rel kok valok s /\ Uniform kok s hs) ->
  (forall s hs, In (s, hs) (tl ps) -> s_isEmpty s = false) -> r_join (map fst ps) = Ok r ->
  Rel kok valok r /\ Uniform kok r (flat_map snd ps) /\
  forall x, Tup kok valok x -> Has r x <->
    HasAttrs kok x (flat_map snd ps) /\ forall s hs, In (s, hs) ps -> exists a, m_project x hs = Ok a /\ Has s a.
Proof.
  intros Hps Hne E1.
  assert (Hin : forall p, In p (tl ps) -> In p ps) by (destruct ps; cbn; auto).
  destruct (r_join_ok ps r) as (Hr & Hh & HJ); auto.
  - intros [s hs] Hp. destruct (Hps s hs Hp) as [H1 H2]. split; auto. apply uniform_header; auto.
  - intros [s hs] Hp. apply isEmpty_sel'; [apply (Hps s hs); auto|]. eapply Hne; eauto.
  - split; auto. split; [apply uniform_header; auto|]. intros x Hx. rewrite has_smem, HJ, hasAttrs_iff by auto. unfold joinedAll.
    split; intros [H1 H2]; (split; [auto|]).
    + intros s hs Hp. destruct (Hps s hs Hp) as [Hs [Hu _]]. destruct (pr_ok x hs Hx Hu) as (P1 & T1 & _). exists (pr x hs). split; auto.
      apply has_smem; auto. apply (H2 (s, hs) Hp).
    + intros [s hs] Hp. destruct (Hps s hs Hp) as [Hs [Hu _]]. destruct (pr_ok x hs Hx Hu) as (P1 & T1 & _).
      destruct (H2 s hs Hp) as (a & Ea & Ha). rewrite P1 in Ea. injection Ea as <-. cbn [fst snd]. apply has_smem in Ha; auto.
Qed.

(** Join returns, unless attributes collide. *)
Lemma c40_returns (ps : list (set (gomap X V) * list X)) : FewCollisions kok -> ps <> [] ->
  (forall s hs, In (s, hs) ps -> Rel kok valok s /\ Uniform kok s hs) ->
  (forall s hs, In (s, hs) (tl ps) -> s_isEmpty s = false) -> exists r, r_join (map fst ps) = Ok r.
Proof.
  intros Hf Hn Hps Hne. assert (Hin : forall p, In p (tl ps) -> In p ps) by (destruct ps; cbn; auto).
  apply r_join_returns; auto.
  - intros [s hs] Hp. destruct (Hps s hs Hp) as [H1 H2]. split; auto. apply uniform_header; auto.
  - intros [s hs] Hp. apply isEmpty_sel'; [apply (Hps s hs); auto|]. eapply Hne; eauto.
Qed.

(** If the first operand is empty, so is the join. *)
Lemma c40_empty_first (s : set (gomap X V)) ts : s_isEmpty s = true -> r_join (s :: ts) = Ok s.
Proof. intros H. cbn [r_join]. induction ts as [|t ts IH]; cbn [foldM]; auto. unfold r_join2 at 1. rewrite H. cbn. auto. Qed.

(** But if the second operand is empty, the join is the first operand. *)
Lemma c40_empty_second (s t : set (gomap X V)) : s_isEmpty t = true -> r_join [s; t] = Ok s.
Proof. intros H. cbn [r_join foldM]. unfold r_join2. rewrite H, orb_true_r. auto. Qed.

Lemma c40_no_operand : r_join (X := X) (V := V) [] = Panic.
Proof. auto. Qed.

(** The join does not depend on the order of two non-empty operands. *)
Lemma c40_commutes s t hs ht r r' : Rel kok valok s -> Rel kok valok t -> Uniform kok s hs -> Uniform kok t ht ->
  s_isEmpty s = s_isEmpty t -> r_join [s; t] = Ok r -> r_join [t; s] = Ok r' -> s_equal r r' = Ok true.
Proof.
  intros Hs Ht Us Ut He E1 E2.
  assert (H1 : s_isEmpty s = true \/ s_isEmpty t = false) by (destruct (s_isEmpty s), (s_isEmpty t); auto; discriminate).
  assert (H2 : s_isEmpty t = true \/ s_isEmpty s = false) by (destruct (s_isEmpty s), (s_isEmpty t); auto; discriminate).
  destruct (c40_join s t hs ht r Hs Ht Us Ut H1 E1) as (Hr & _ & HJ). destruct (c40_join t s ht hs r' Ht Hs Ut Us H2 E2) as (Hr' & _ & HJ').
  destruct (s_equal_ok (vok := Tup kok valok) r r' Hr Hr') as (b & Eb & HB). rewrite Eb. f_equal. apply HB. intros x Hx.
  fold (smem r x) (smem r' x). rewrite <- !has_smem, HJ, HJ' by auto.
  assert (HA : HasAttrs kok x (hs ++ ht) <-> HasAttrs kok x (ht ++ hs)).
  { unfold HasAttrs, among. split; intros H j Hj; rewrite H, !existsb_app by auto; rewrite orb_comm; tauto. }
  tauto.
Qed.

(** ** C41 *)

(** The tuples and relations that a program can obtain are among those of the theorems. *)
Lemma c41_reach : (forall t : gomap X V, MapReach kok valok t -> Tup kok valok t) /\ (forall r : set (gomap X V), SetReach (K := mapKey) (Tup kok valok) r -> Rel kok valok r) /\
  (forall AA : gomap X (set X), MapReach kok (sok kok) AA -> AttrMap kok AA).
Proof.
  split; [|split].
  - intros t Ht. split; [apply mreach_ok in Ht|apply mreach_vals in Ht]; auto.
  - intros r Hr. apply (sreach_ok (vok := Tup kok valok)) in Hr. auto.
  - intros t Ht. split; [apply mreach_ok in Ht|apply mreach_vals in Ht]; auto.
Qed.

Lemma c41_new header rows : (forall h, In h header -> kok h) ->
  (forall row, In row rows -> length row = length header /\ forall v, In v row -> valok v) ->
  exists r, r_new header rows = Ok r /\ Rel kok valok r /\
    forall x, Tup kok valok x -> Has r x <-> exists row, In row rows /\ TupleIs kok x (lastFor (List.combine header row)).
Proof.
  intros Hh Hr. destruct (r_new_ok header rows Hh Hr) as (r & E1 & Ho & HR). exists r. split; auto. split; auto.
  intros x Hx. rewrite has_smem, HR by auto. split.
  - intros (row & t & Hrow & Et & Hq). exists row. split; auto. destruct (Hr row Hrow) as [Hl Hv].
    destruct (r_row_ok header row Hh Hv Hl) as (t' & Et' & Ht & HT). rewrite Et in Et'. injection Et' as <-.
    apply tupleIs_meets; auto. intros j Hj. rewrite lastFor_klast, <- HT by auto.
    apply (proj1 (teq_meets' t x Ht Hx) Hq j Hj).
  - intros (row & Hrow & HT'). destruct (Hr row Hrow) as [Hl Hv].
    destruct (r_row_ok header row Hh Hv Hl) as (t & Et & Ht & HT). exists row, t. split; auto. split; auto.
    apply (teq_meets' t x Ht Hx). apply tupleIs_meets in HT'; auto. intros j Hj. specialize (HT' j Hj). rewrite lastFor_klast, <- HT in HT' by auto. auto.
Qed.

(** All its tuples have the attributes of the header. *)
Lemma c41_new_header header rows r : (forall h, In h header -> kok h) ->
  (forall row, In row rows -> length row = length header /\ forall v, In v row -> valok v) ->
  r_new header rows = Ok r -> Uniform kok r header.
Proof.
  intros Hh Hr E1. destruct (c41_new header rows Hh Hr) as (r' & E2 & Ho & HR). rewrite E1 in E2. injection E2 as <-.
  split; auto. intros t Ht. pose proof (holds_tup r t Ho Ht) as Hot.
  assert (Hhas : Has r t).
  { apply has_smem; auto. apply smem_iff. exists t. split; [apply holds_sel; auto|]. apply (veq_refl (vok := Tup kok valok)); auto. }
  apply HR in Hhas as (row & Hrow & HT); auto. destruct (Hr row Hrow) as [Hl _]. intros j Hj. specialize (HT j Hj).
  assert (HL : forall (h : list X) (w : list V), length w = length h -> (exists v, lastFor (List.combine h w) j = Some v) <-> among h j = true).
  { clear. intros h. induction h as [|k h IH]; intros [|v w] Hl; try discriminate; cbn [List.combine lastFor among existsb].
    - split; [intros [v H]; discriminate|discriminate].
    - specialize (IH w (f_equal pred Hl)). cbn [length pred] in IH. unfold among in IH.
      destruct (lastFor (List.combine h w) j) as [u|].
      + rewrite (proj1 IH) by eauto. rewrite orb_true_r. split; eauto.
      + assert (existsb (fun k0 => veq k0 j) h = false) as -> by (apply not_true_iff_false; intros H; apply IH in H as [? H]; discriminate).
        rewrite orb_false_r. destruct (veq k j); split; eauto; try discriminate. intros [? H]. discriminate. }
  rewrite <- (HL header row Hl). destruct (At t j) as [u|], (lastFor (List.combine header row) j) as [w|]; cbn in HT; try tauto; split; eauto.
Qed.

Lemma c41_new_mismatch header rows row : (forall h, In h header -> kok h) ->
  (forall row, In row rows -> forall v, In v row -> valok v) ->
  In row rows -> length row <> length header -> r_new header rows = Panic.
Proof. apply r_new_mismatch. Qed.

Lemma c41_project s attrs : Rel kok valok s -> (forall k, In k attrs -> kok k) ->
  exists r, r_project s attrs = Ok r /\ Rel kok valok r /\
    forall x, Tup kok valok x -> Has r x <-> exists t, Holds s t /\ TupleIs kok x (Only (among attrs) (At t)).
Proof.
  intros Hs Ha. destruct (r_project_ok s attrs Hs Ha) as (r & E1 & Hr & HR). exists r. split; auto. split; auto.
  intros x Hx. rewrite has_smem, HR by auto. split; intros (t & Ht & H); exists t.
  - assert (Hh : Holds s t) by (apply holds_sel; auto). split; auto. apply tupleIs_meets; auto. intros j Hj. specialize (H j Hj).
    unfold Only. rewrite (at_mget t) by (auto; apply (holds_tup s); auto). exact H.
  - assert (Hi : In t (sel s)) by (apply holds_sel; auto). split; auto. apply tupleIs_meets in H; auto. intros j Hj. specialize (H j Hj).
    unfold Only in H. rewrite (at_mget t) in H by (auto; apply (holds_tup s); auto). exact H.
Qed.

Lemma updated_overAll (es : list (gomap X V)) j : (forall e, In e es -> Tup kok valok e) -> kok j -> Updated es j = overAll (fun _ => None) es j.
Proof.
  intros He Hj. unfold Updated, overAll.
  assert (H : forall (F : X -> option V), fold_left (fun acc t => match At t j with Some v => Some v | None => acc end) es (F j) = fold_left over es F j).
  { induction es as [|e es IH]; intros F; cbn [fold_left]; auto. rewrite <- IH by (intros; apply He; right; auto). f_equal.
    unfold over. rewrite at_mget by (auto; apply He; left; auto). auto. }
  apply (H (fun _ => None)).
Qed.

Lemma c41_cartesian rels r : (forall s, In s rels -> Rel kok valok s) -> r_cartesian rels = Ok r ->
  Rel kok valok r /\ forall x, Tup kok valok x -> Has r x <-> exists es, Forall2 Holds rels es /\ TupleIs kok x (Updated es).
Proof.
  intros Hr E1. destruct (r_cartesian_ok rels r Hr E1) as [Ho HR]. split; auto. intros x Hx. rewrite has_smem, HR by auto.
  assert (HF : forall es, Forall2 (fun r e => In e (sel r)) rels es <-> Forall2 Holds rels es).
  { clear HR E1. induction rels as [|s rels IH]; intros es; split; intros H; inversion H as [|? e ? es' H1 H2]; subst; constructor;
      try (apply holds_sel; auto; apply Hr; left; auto); try (apply IH; auto; intros; apply Hr; right; auto). }
  assert (HT : forall es, Forall2 Holds rels es -> forall e, In e es -> Tup kok valok e).
  { clear HF HR E1. induction rels as [|s rels IH]; intros es H; inversion H as [|? e ? es' H1 H2]; subst; intros e0 He; [destruct He|].
    destruct He as [<-|He]; [apply (holds_tup s); auto; apply Hr; left; auto|]. apply (IH (fun s Hs => Hr s (or_intror Hs)) es'); auto. }
  split; intros (es & H1 & H2); exists es.
  - apply HF in H1. split; auto. apply tupleIs_meets; auto. intros j Hj. specialize (H2 j Hj). rewrite updated_overAll; eauto.
  - pose proof (HT es H1) as Ht. apply HF in H1. split; auto. apply tupleIs_meets in H2; auto. intros j Hj. specialize (H2 j Hj). rewrite updated_overAll in H2; auto.
Qed.

Lemma c41_cartesian_returns rels : FewCollisions kok -> (forall s, In s rels -> Rel kok valok s) -> exists r, r_cartesian rels = Ok r.
Proof. intros Hf Hr. apply r_cartesian_returns; auto. Qed.

(** ** C42 *)
Context {RV : RelVal X V} {RVO : RelValOk (kok := kok) (valok := valok)}.

Lemma inA_ok A j : sok kok A -> kok j -> inA A j = hasAttr (sel A) j.
Proof. intros HA Hj. unfold inA. rewrite (s_has_ok (vok := kok)) by auto. rewrite hasAttr_lookup. destruct (lookup (sel A) j); auto. Qed.

Lemma sameRest_iff t u ka attrs : Tup kok valok t -> Tup kok valok u -> (forall k, In k ka -> kok k) -> (forall j, kok j -> attrs j = hasAttr ka j) ->
  SameRest kok attrs t u <-> @veq _ mapKey (wo t ka) (wo u ka) = true.
Proof.
  intros Ht Hu Hka HA. destruct (wo_ok t ka Ht Hka) as (_ & Hwt & HWt). destruct (wo_ok u ka Hu Hka) as (_ & Hwu & HWu).
  rewrite (teq_meets (wo t ka) (wo u ka) Hwt Hwu). unfold SameRest, meets, Drop. split; intros H j Hj; specialize (H j Hj).
  - rewrite HWt, HWu by auto. rewrite HA, !at_mget in H by auto. exact H.
  - rewrite HWt, HWu in H by auto. rewrite HA, !at_mget by auto. exact H.
Qed.

Lemma nestedAs_iff s ka attrs A t p : Rel kok valok s -> Holds s t -> sok kok A -> (forall k, In k ka -> kok k) -> (forall j, kok j -> attrs j = hasAttr ka j) ->
  NestedAs kok valok s attrs A t p <-> nestedOf (kok := kok) (valok := valok) s ka t A p.
Proof.
  intros Hs Ht HA Hka Hat. pose proof (holds_tup s t Hs Ht) as Hot.
  assert (HI : forall t' y, Holds s t' -> Tup kok valok y -> (SameRest kok attrs t' t /\ TupleIs kok y (Only (inA A) (At t')) <->
     @veq _ mapKey (wo t' ka) (wo t ka) = true /\ meets (kok := kok) y (fun j => if hasAttr (sel A) j then mget t' j else None))).
  { intros t' y Ht' Hy. pose proof (holds_tup s t' Hs Ht') as Hot'. rewrite (sameRest_iff t' t ka) by auto. rewrite tupleIs_meets by auto.
    assert (HM : meets (kok := kok) y (Only (inA A) (At t')) <-> meets (kok := kok) y (fun j => if hasAttr (sel A) j then mget t' j else None)).
    { unfold meets, Only. split; intros H j Hj; specialize (H j Hj); [rewrite inA_ok, at_mget in H by auto|rewrite inA_ok, at_mget by auto]; auto. }
    tauto. }
  unfold NestedAs, nestedOf. split; intros [Hp HP]; (split; [auto|]); intros y Hy; [rewrite <- has_smem by auto|rewrite has_smem by auto]; rewrite HP by auto;
    split; intros (t' & Ht' & H); exists t'.
  - split; [apply holds_sel; auto|]. apply HI; auto.
  - apply holds_sel in Ht'; auto. split; auto. apply HI; auto.
  - apply holds_sel in Ht'; auto. split; auto. apply HI; auto.
  - split; [apply holds_sel; auto|]. apply HI; auto.
Qed.

Lemma attr_set AA j A : AttrMap kok AA -> mget AA j = Some A -> sok kok A.
Proof.
  intros [_ Hv] EA. unfold mget in EA. destruct (klk (mel AA) j) as [ea|] eqn:Ek; [|discriminate]. injection EA as <-.
  apply klk_Some in Ek as [Hea _]. apply Hv; auto.
Qed.

Lemma nestTuple_iff s ka attrs AA t x : Rel kok valok s -> Holds s t -> AttrMap kok AA -> (forall k, In k ka -> kok k) -> (forall j, kok j -> attrs j = hasAttr ka j) ->
  NestTuple kok valok s attrs AA t x <-> isNest (kok := kok) (valok := valok) s ka AA t x.
Proof.
  intros Hs Ht HA Hka Hat. pose proof (holds_tup s t Hs Ht) as Hot. destruct (wo_ok t ka Hot Hka) as (_ & Hwt & HWt).
  unfold NestTuple, isNest. split; intros [Hx H]; (split; [auto|]); intros j Hj; specialize (H j Hj);
    unfold Drop in *; rewrite !Hat, !at_mget in * by auto; rewrite at_attrs in * by auto.
  - rewrite HWt by auto. destruct (if hasAttr ka j then None else mget t j); auto. destruct (mget AA j) as [A|] eqn:EA; auto.
    destruct H as (p & Hp & HN). exists p. split; auto. eapply nestedAs_iff; eauto. eapply attr_set; eauto.
  - rewrite HWt in H by auto. destruct (if hasAttr ka j then None else mget t j); auto. destruct (mget AA j) as [A|] eqn:EA; auto.
    destruct H as (p & Hp & HN). exists p. split; auto. eapply nestedAs_iff; eauto. eapply attr_set; eauto.
Qed.

(** Nest removes from the tuples the attributes [ka] that occur in every attribute set. *)
Lemma c42_nest s AA r : Rel kok valok s -> AttrMap kok AA -> r_nest s AA = Ok r ->
  exists ka, (forall j, kok j -> among ka j = true <-> forall k A, kok k -> At AA k = Some A -> Has A j) /\
  Rel kok valok r /\ (forall x, Holds r x -> exists t, Holds s t /\ NestTuple kok valok s (among ka) AA t x) /\
  (forall y, Tup kok valok y -> Has r y <-> exists t u, Holds s t /\ NestTuple kok valok s (among ka) AA t u /\ @veq _ mapKey u y = true).
Proof.
  intros Hs HA E1. destruct (r_nest_ok s AA r Hs (proj1 HA) (proj2 HA) E1) as (ka & Hka & HK & Hr & HL & _ & HM). exists ka.
  split; [|split; [auto|split]].
  - intros j Hj. change (among ka j) with (hasAttr ka j). rewrite HK by auto. unfold inAll. split; intros H k A Hk HkA.
    + rewrite at_attrs in HkA by auto. apply (has_lookup (vok := kok)); auto; [eapply attr_set; eauto|]. eapply H; eauto.
    + pose proof (attr_set AA k A HA HkA) as HAo. apply (has_lookup (vok := kok)); auto. apply (H k); auto. rewrite at_attrs by auto. auto.
  - intros x Hx. apply holds_sel in Hx; auto. destruct (HL x Hx) as (t & Ht & HN). apply holds_sel in Ht; auto. exists t. split; auto.
    eapply nestTuple_iff; eauto.
  - intros y Hy. rewrite has_smem, HM by auto. split; intros (t & u & Ht & HN & Hq); exists t, u.
    + apply holds_sel in Ht; auto. split; auto. split; auto. eapply nestTuple_iff; eauto.
    + split; [apply holds_sel; auto|]. split; auto. eapply nestTuple_iff in HN; eauto.
Qed.

Lemma c42_nest_returns s AA : FewCollisions kok -> Rel kok valok s -> AttrMap kok AA -> m_count AA <> 0%Z -> exists r, r_nest s AA = Ok r.
Proof.
  intros Hf Hs HA Hn. apply (r_nest_returns (kok := kok) (valok := valok)); auto; try apply HA.
  intros H. apply Hn. rewrite (m_count_ok (kok := kok)) by apply HA. rewrite H. auto.
Qed.

Lemma c42_no_attribute s AA : AttrMap kok AA -> m_count AA = 0%Z -> r_nest (V := V) s AA = Panic.
Proof.
  intros HA Hn. apply (r_nest_empty (kok := kok)); auto; try apply HA.
  rewrite (m_count_ok (kok := kok)) in Hn by apply HA. destruct (mel AA); auto. cbn in Hn. lia.
Qed.

(** Nesting under several attributes with disjoint attribute sets removes no attribute from the key. *)
Lemma c42_several s AA r : Rel kok valok s -> AttrMap kok AA -> (forall j, kok j -> exists k A, kok k /\ At AA k = Some A /\ ~ Has A j) ->
  r_nest s AA = Ok r -> forall x, Holds r x -> exists t, Holds s t /\ forall j v, kok j -> At t j = Some v -> Same (At x j) (Some v).
Proof.
  intros Hs HA Hd E1 x Hx. destruct (c42_nest s AA r Hs HA E1) as (ka & HK & Hr & HL & _). destruct (HL x Hx) as (t & Ht & _ & HN).
  exists t. split; auto. intros j v Hj Hv. specialize (HN j Hj). unfold Drop in HN.
  assert (Hk : among ka j = false).
  { apply not_true_iff_false. intros H. destruct (Hd j Hj) as (k & A & Hk & HkA & Hn). apply Hn. apply (proj1 (HK j Hj) H k); auto. }
  rewrite Hk, Hv in HN. auto.
Qed.

(** *** One nested attribute *)

Ltac mv := let v := fresh in let H := fresh in intros v H;
  match type of H with mget ?t ?j = _ => refine (mget_valok (kok := kok) (valok := valok) t j v _ H); auto end.

(** The map literal {a: A}. *)
Lemma c42_single a A AA : kok a -> sok kok A -> m_new [mkKV a A] = Ok AA -> Single kok AA a A.
Proof.
  intros Ha HA E1. destruct (m_new_ok (kok := kok) [mkKV a A]) as (m & E2 & Hm & HM); [intros kv [<-|[]]; auto|].
  rewrite E1 in E2. injection E2 as <-.
  assert (HG : forall k, kok k -> mget AA k = if veq a k then Some A else None).
  { intros k Hk. unfold mget. rewrite HM by auto. unfold klast. cbn. destruct (veq a k); auto. }
  assert (HAM : AttrMap kok AA).
  { split; auto. intros e He. pose proof (mok_allok AA Hm e He) as Hke. pose proof (mel_mget AA e (e_key e) Hm He Hke (veq_refl (vok := kok) _ Hke)) as H.
    rewrite HG in H by auto. destruct (veq a (e_key e)); [|discriminate]. injection H as <-. auto. }
  split; auto. split; auto. split; auto. intros k Hk. rewrite at_attrs by auto. auto.
Qed.

Lemma c42_nest_one s AA a A r : Rel kok valok s -> Single kok AA a A -> Fresh s a A -> r_nest s AA = Ok r ->
  Rel kok valok r /\
  (forall x, Holds r x -> exists t, Holds s t /\ NestOne kok valok s a A t x) /\
  (forall t, Holds s t -> exists x, Holds r x /\ NestOne kok valok s a A t x) /\
  (forall t t' x x', Holds s t -> Holds s t' -> Holds r x -> Holds r x' -> NestOne kok valok s a A t x -> NestOne kok valok s a A t' x' -> SameRest kok (inA A) t t' <-> x = x').
Proof.
  intros Hs (HAA & Ha & HA & HAt) Hfr E1.
  assert (HAt' : forall k, kok k -> mget AA k = if veq a k then Some A else None) by (intros k Hk; rewrite <- HAt by auto; symmetry; apply at_attrs; auto).
  assert (Hfree : forall t, In t (sel s) -> hasAttr (sel A) a = true \/ mget t a = None).
  { intros t Ht. apply holds_sel in Ht; auto. rewrite <- inA_ok by auto. rewrite <- at_mget by (auto; apply (holds_tup s); auto). auto. }
  destruct (r_nest_ok s AA r Hs (proj1 HAA) (proj2 HAA) E1) as (ka & Hka & HK & Hr & HL & HEx & HM).
  pose proof (one_inAll AA a A Ha HAt' ka HK) as HO.
  assert (HO' : forall j, kok j -> inA A j = hasAttr ka j) by (intros j Hj; rewrite inA_ok, HO by auto; auto).
  assert (HOne : forall t x, Holds s t -> isNest (kok := kok) (valok := valok) s ka AA t x -> NestOne kok valok s a A t x).
  { intros t x Ht HN. pose proof (holds_tup s t Hs Ht) as Hot. pose proof (proj1 (holds_sel s t Hs) Ht) as Hti.
    destruct (nest_tuple s AA a A Hs Ha HA HAt' Hfree ka t x Hka HK Hti HN) as (Hx & (p & Hp & HNp & Hpn) & HR).
    split; auto. split.
    - intros j Hj Hq. rewrite at_mget by auto. unfold Drop. rewrite inA_ok, (at_mget t) by auto. apply HR; auto.
    - exists p. rewrite at_mget by auto. split; [apply Hp; auto; apply (veq_refl (vok := kok)); auto|]. split.
      + eapply nestedAs_iff; eauto.
      + apply isEmpty_sel'; auto. apply HNp. }
  assert (HG : forall t t' x x', Holds s t -> Holds s t' -> Tup kok valok x -> Tup kok valok x' -> NestOne kok valok s a A t x -> NestOne kok valok s a A t' x' -> @veq _ mapKey x x' = true -> SameRest kok (inA A) t t').
  { intros t t' x x' Ht Ht' Hx Hx' (_ & H1 & _) (_ & H2 & _) Hq j Hj. apply (proj1 (teq_meets x x' Hx Hx')) in Hq. specialize (Hq j Hj).
    pose proof (holds_tup s t Hs Ht) as Hot. pose proof (holds_tup s t' Hs Ht') as Hot'. destruct (veq a j) eqn:Eq.
    - assert (HNa : forall t0, Holds s t0 -> Drop (inA A) (At t0) j = None).
      { intros t0 Ht0. pose proof (holds_tup s t0 Hs Ht0) as Hot0. unfold Drop. rewrite at_mget, inA_ok by auto.
        rewrite <- (hasAttr_veq (sel A) a j) by (auto; apply (sok_allok (vok := kok)); auto). rewrite <- (mget_veq (valok := valok) t0 a j Hot0 Ha Hj Eq) by auto.
        destruct (Hfree t0 (proj1 (holds_sel s t0 Hs) Ht0)) as [H|H]; rewrite H; auto. destruct (hasAttr (sel A) a); auto. }
      rewrite !HNa by auto. exact Logic.I.
    - specialize (H1 j Hj Eq). specialize (H2 j Hj Eq). rewrite at_mget in H1, H2 by auto. unfold Drop in *. destruct (inA A j); [exact Logic.I|].
      rewrite (at_mget t), (at_mget t') in * by auto. apply (opteq_trans (valok := valok) (mget t j) (mget x j) (mget t' j)); try mv.
      + apply (opteq_sym (valok := valok)); try mv. auto.
      + apply (opteq_trans (valok := valok) (mget x j) (mget x' j) (mget t' j)); try mv; auto. }
  assert (HS : forall t t' x, Holds s t -> Holds s t' -> SameRest kok (inA A) t t' -> isNest (kok := kok) (valok := valok) s ka AA t' x -> isNest (kok := kok) (valok := valok) s ka AA t x).
  { intros t t' x Ht Ht' HSr [Hx HN]. split; auto. intros j Hj. specialize (HN j Hj).
    pose proof (holds_tup s t Hs Ht) as Hot. pose proof (holds_tup s t' Hs Ht') as Hot'.
    pose proof (proj1 (sameRest_iff t t' ka (inA A) Hot Hot' Hka HO') HSr) as Hqw.
    destruct (wo_ok t ka Hot Hka) as (_ & Hw & _). destruct (wo_ok t' ka Hot' Hka) as (_ & Hw' & _).
    pose proof (proj1 (teq_meets (wo t ka) (wo t' ka) Hw Hw') Hqw j Hj) as Hqj.
    destruct (mget (wo t ka) j) as [v|] eqn:Ev, (mget (wo t' ka) j) as [v'|] eqn:Ev'; try (destruct Hqj; fail).
    - assert (valok v) by (apply (mget_valok (kok := kok) (wo t ka) j); auto). assert (valok v') by (apply (mget_valok (kok := kok) (wo t' ka) j); auto).
      apply (opteq_trans (valok := valok) (mget x j) (Some v') (Some v)); auto; try mv; try congruence.
      apply (opteq_sym (valok := valok) (Some v) (Some v')); auto; congruence.
    - destruct (mget AA j) as [A0|]; auto. destruct HN as (p & Hp & Hpo & HP). exists p. split; auto. split; auto.
      intros y Hy. rewrite HP by auto. split; intros (t0 & Ht0 & Hq0 & HM0); exists t0; (split; [auto|split; auto]);
        destruct (wo_ok t0 ka (sok_allok s Hs t0 Ht0) Hka) as (_ & Hw0 & _).
      + apply (veq_trans (vok := Tup kok valok) (wo t0 ka) (wo t' ka) (wo t ka)); auto. apply (veq_sym (vok := Tup kok valok)); auto.
      + apply (veq_trans (vok := Tup kok valok) (wo t0 ka) (wo t ka) (wo t' ka)); auto. }
  split; auto.
  assert (HL' : forall x, Holds r x -> exists t, Holds s t /\ isNest (kok := kok) (valok := valok) s ka AA t x).
  { intros x Hx. apply holds_sel in Hx; auto. destruct (HL x Hx) as (t & Ht & HN). exists t. split; auto. apply holds_sel; auto. }
  split; [|split].
  - intros x Hx. destruct (HL' x Hx) as (t & Ht & HN). eauto.
  - intros t Ht. destruct (HEx t (proj1 (holds_sel s t Hs) Ht)) as (u & HN).
    assert (Hm : smem r u) by (apply HM; [apply HN|]; exists t, u; split; [apply holds_sel; auto|split; auto; apply (veq_refl (vok := Tup kok valok)); apply HN]).
    apply smem_iff in Hm as (x & Hx & Hq). apply holds_sel in Hx; auto. exists x. split; auto.
    destruct (HL' x Hx) as (t' & Ht' & HN'). apply HOne; auto. apply (HS t t'); auto.
    apply (HG t t' u x Ht Ht'); auto; [apply HN|apply HN'|]. apply (veq_sym (vok := Tup kok valok)); auto; [apply HN'|apply HN].
  - intros t t' x x' Ht Ht' Hx Hx' HN HN'. split.
    + intros HSr. destruct (HL' x Hx) as (u & Hu & HNu). destruct (HL' x' Hx') as (u' & Hu' & HNu').
      pose proof (holds_tup r x Hr Hx) as Hox. pose proof (holds_tup r x' Hr Hx') as Hox'.
      assert (HSI : forall t0 t1, Holds s t0 -> Holds s t1 -> SameRest kok (inA A) t0 t1 <-> @veq _ mapKey (wo t0 ka) (wo t1 ka) = true).
      { intros t0 t1 H0 H1. exact (sameRest_iff t0 t1 ka (inA A) (holds_tup s t0 Hs H0) (holds_tup s t1 Hs H1) Hka HO'). }
      assert (Hwo : forall t0, Holds s t0 -> Tup kok valok (wo t0 ka)).
      { intros t0 H0. destruct (wo_ok t0 ka (holds_tup s t0 Hs H0) Hka) as (_ & Hw0 & _). exact Hw0. }
      assert (HTT : forall t0 t1 t2, SameRest kok (inA A) t0 t1 -> SameRest kok (inA A) t1 t2 -> Holds s t0 -> Holds s t1 -> Holds s t2 -> SameRest kok (inA A) t0 t2).
      { intros t0 t1 t2 Ha1 Hb1 H0 H1 H2. rewrite HSI in * by auto.
        apply (veq_trans (vok := Tup kok valok) (wo t0 ka) (wo t1 ka) (wo t2 ka)); auto. }
      assert (Hqx : @veq _ mapKey x x = true) by (apply (veq_refl (vok := Tup kok valok)); auto).
      assert (Hqx' : @veq _ mapKey x' x' = true) by (apply (veq_refl (vok := Tup kok valok)); auto).
      assert (Hut : SameRest kok (inA A) u u').
      { apply (HTT u t u'); auto; [apply (HG u t x x); auto|]. apply (HTT t t' u'); auto. apply (HG t' u' x' x'); auto. }
      assert (Hq : @veq _ mapKey x x' = true).
      { apply (isNest_unique s ka AA u); auto; [apply (HS u u'); auto|]. destruct (wo_ok u ka (holds_tup s u Hs Hu) Hka) as (_ & Hwu & _). auto. }
      apply (holds_lookup (vok := Tup kok valok)) in Hx; auto. apply (holds_lookup (vok := Tup kok valok)) in Hx'; auto.
      rewrite (lookup_veq (vok := Tup kok valok) (sel r) x x') in Hx by (auto; apply (sok_allok (vok := Tup kok valok)); auto). congruence.
    + intros <-. apply (HG t t' x x); auto; try (eapply holds_tup; eauto; fail). apply (veq_refl (vok := Tup kok valok)). eapply holds_tup; eauto.
Qed.

(** Unnest inverts it. *)
Lemma c42_inverse s AA a A r u : Rel kok valok s -> Single kok AA a A -> Fresh s a A -> r_nest s AA = Ok r -> r_unnest r a = Ok u ->
  Rel kok valok u /\ SameMembers (Tup kok valok) u s /\ s_equal u s = Ok true.
Proof.
  intros Hs (HAA & Ha & HA & HAt) Hfr E1 E2.
  assert (HAt' : forall k, kok k -> mget AA k = if veq a k then Some A else None) by (intros k Hk; rewrite <- HAt by auto; symmetry; apply at_attrs; auto).
  assert (Hfree : forall t, In t (sel s) -> hasAttr (sel A) a = true \/ mget t a = None).
  { intros t Ht. apply holds_sel in Ht; auto. rewrite <- inA_ok by auto. rewrite <- at_mget by (auto; apply (holds_tup s); auto). auto. }
  destruct (unnest_nest s AA a A Hs (proj1 HAA) (proj2 HAA) Ha HA HAt' Hfree r u E1) as [_ H]. destruct (H E2) as [Hu HU].
  split; auto. split.
  - intros x Hx. rewrite !has_smem by auto. auto.
  - destruct (s_equal_ok (vok := Tup kok valok) u s Hu Hs) as (b & Eb & HB). rewrite Eb. f_equal. apply HB. intros x Hx. apply HU; auto.
Qed.

Lemma c42_inverse_returns s AA a A : FewCollisions kok -> Rel kok valok s -> Single kok AA a A -> Fresh s a A ->
  exists r u, r_nest s AA = Ok r /\ r_unnest r a = Ok u.
Proof.
  intros Hf Hs (HAA & Ha & HA & HAt) Hfr.
  assert (HAt' : forall k, kok k -> mget AA k = if veq a k then Some A else None) by (intros k Hk; rewrite <- HAt by auto; symmetry; apply at_attrs; auto).
  assert (Hfree : forall t, In t (sel s) -> hasAttr (sel A) a = true \/ mget t a = None).
  { intros t Ht. apply holds_sel in Ht; auto. rewrite <- inA_ok by auto. rewrite <- at_mget by (auto; apply (holds_tup s); auto). auto. }
  destruct (r_nest_returns (kok := kok) (valok := valok) s AA Hf Hs (proj1 HAA) (proj2 HAA)) as (r & Er).
  { intros H. specialize (HAt' a Ha). rewrite (veq_refl (vok := kok)) in HAt' by auto. unfold mget in HAt'. rewrite H in HAt'. discriminate. }
  exists r. destruct (unnest_nest s AA a A Hs (proj1 HAA) (proj2 HAA) Ha HA HAt' Hfree r r Er) as [Hn _].
  destruct (r_nest_ok s AA r Hs (proj1 HAA) (proj2 HAA) Er) as (ka & _ & _ & Hr & _).
  destruct (r_unnest_returns r a Hf Hr Ha Hn) as (u & Eu). eauto.
Qed.

(** *** Unnest *)

Lemma nested_nestable a x : Tup kok valok x -> kok a -> Nested kok a x -> nestable (kok := kok) a x.
Proof.
  intros Hx Ha HN v Hv. destruct (HN v) as (p & Hp & HC); [rewrite at_mget; auto|]. exists p. split; auto.
  assert (Hpo : Rel kok valok p) by (apply (proj2 (toAny_ok (kok := kok) (valok := valok) p)); rewrite <- Hp; apply (mget_valok (kok := kok) x a); auto).
  intros b b' j Hb Hb' Hj.
  destruct (wo_ok x [a] Hx) as (_ & _ & HW); [intros k [<-|[]]; auto|]. rewrite HW by auto. cbn [hasAttr existsb]. rewrite orb_false_r.
  destruct (veq a j) eqn:Eq; auto. destruct (mget x j) eqn:Exj; auto. cbn [isSome andb].
  pose proof (sok_allok p Hpo b Hb) as Hob. pose proof (sok_allok p Hpo b' Hb') as Hob'.
  apply holds_sel in Hb; auto. apply holds_sel in Hb'; auto.
  pose proof (HC b b' j Hb Hb' Hj Eq) as H1. pose proof (HC b' b j Hb' Hb Hj Eq) as H2. rewrite !at_mget in H1, H2 by auto. rewrite Exj in H1, H2.
  destruct (mget b j), (mget b' j); cbn; auto; exfalso; [apply H1|apply H2]; congruence.
Qed.

Lemma unnestTuple_iff a x y : Tup kok valok x -> kok a -> Tup kok valok y -> UnnestTuple kok a x y <-> unnests (kok := kok) a x y.
Proof.
  intros Hx Ha Hy. unfold UnnestTuple, unnests. rewrite at_mget by auto. destruct (mget x a) as [v|] eqn:Ev.
  - destruct (wo_ok x [a] Hx) as (_ & Hwo & HW); [intros k [<-|[]]; auto|].
    assert (HW' : forall j, kok j -> mget (wo x [a]) j = if veq a j then None else mget x j).
    { intros j Hj. rewrite HW by auto. cbn. rewrite orb_false_r. auto. }
    split; intros (p & b & Hp & Hb & HC & HT); exists p, b; (split; [auto|]);
      assert (Hpo : Rel kok valok p) by (apply (proj2 (toAny_ok (kok := kok) (valok := valok) p)); rewrite <- Hp; apply (mget_valok (kok := kok) x a); auto).
    + pose proof (holds_tup p b Hpo Hb) as Hob. split; [apply holds_sel; auto|]. split.
      * intros j Hj H1 H2. rewrite HW' in * by auto. destruct (veq a j) eqn:Eq; [discriminate|].
        destruct (mget x j) as [u|] eqn:Eu; [|discriminate]. destruct (mget b j) as [w|] eqn:Ew; [|discriminate].
        apply (HC j u w); auto; rewrite at_mget; auto.
      * apply tupleIs_meets in HT; auto. intros j Hj. specialize (HT j Hj). cbv beta in HT. rewrite !at_mget in HT by auto. unfold over. rewrite HW' by auto. auto.
    + apply holds_sel in Hb; auto. pose proof (holds_tup p b Hpo Hb) as Hob. split; auto. split.
      * intros j u w Hj Hq H1 H2. rewrite at_mget in * by auto. specialize (HC j Hj). rewrite HW', Hq, H1, H2 in HC by auto. apply HC; auto.
      * apply tupleIs_meets; auto. intros j Hj. specialize (HT j Hj). cbv beta; rewrite !at_mget by auto. unfold over in HT. rewrite HW' in HT by auto. auto.
  - rewrite tupleIs_meets by auto. unfold meets. split; intros H j Hj; specialize (H j Hj); [rewrite at_mget in H by auto|rewrite at_mget by auto]; auto.
Qed.

Lemma c42_unnest s a r : Rel kok valok s -> kok a -> (forall x, Holds s x -> Nested kok a x) -> r_unnest s a = Ok r ->
  Rel kok valok r /\ forall y, Tup kok valok y -> Has r y <-> exists x, Holds s x /\ UnnestTuple kok a x y.
Proof.
  intros Hs Ha HN E1.
  assert (HN' : forall x, In x (sel s) -> nestable (kok := kok) a x).
  { intros x Hx. apply nested_nestable; auto; [apply (sok_allok s Hs); auto|]. apply HN. apply holds_sel; auto. }
  destruct (r_unnest_ok s a r Hs Ha HN' E1) as [Hr HR]. split; auto. intros y Hy. rewrite has_smem, HR by auto.
  split; intros (x & Hx & HU); exists x.
  - apply holds_sel in Hx; auto. split; auto. apply unnestTuple_iff; auto. apply (holds_tup s); auto.
  - pose proof (holds_tup s x Hs Hx) as Hox. split; [apply holds_sel; auto|]. apply unnestTuple_iff; auto.
Qed.

Lemma c42_unnest_returns s a : FewCollisions kok -> Rel kok valok s -> kok a -> (forall x, Holds s x -> Nested kok a x) -> exists r, r_unnest s a = Ok r.
Proof.
  intros Hf Hs Ha HN. apply (r_unnest_returns (kok := kok) (valok := valok)); auto.
  intros x Hx. apply nested_nestable; auto; [apply (sok_allok s Hs); auto|]. apply HN. apply holds_sel; auto.
Qed.

End SpecRel.
