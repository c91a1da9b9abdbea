(** * SpecNary: the laws of the functions Union and Intersection of any number of sets (C81). *)
From Verif Require Import Base Bits Env EnvFacts Node NodeWf NodeBin NodeBin2 NodeUn Iter Tree TreeFacts SetApi SetFacts MapApi MapFacts Reach Spec SpecSet SpecMap SpecLaws.

Section Nary.
Context {E : Env} {HE : EnvOk E} {T : Type} {K : Key T} {vok : T -> Prop} {KO : KeyOk K vok}.
Local Opaque maxTreeDepth fanout fb.
Implicit Types (s t r : set T) (ss ts : list (set T)).

(** Each set of one list is Equal to one of the other; in whatever order, and however often. *)
Definition SameSets ss ts : Prop :=
  (forall s, In s ss -> exists t, In t ts /\ s_equal s t = Ok true) /\ (forall t, In t ts -> exists s, In s ss /\ s_equal s t = Ok true).

Lemma has_answers s (P : T -> Prop) w : Answers vok s P -> vok w -> Has s w <-> P w.
Proof. intros HA Hw. rewrite <- isIn_has. apply (answers_isIn (vok := vok)); auto. Qed.
Lemma equal_has s t : SetReach vok s -> SetReach vok t -> s_equal s t = Ok true <-> forall w, vok w -> Has s w <-> Has t w.
Proof. intros Hs Ht. destruct (c05_equal s t Hs Ht) as (b & -> & Hb). rewrite <- Hb. split; congruence. Qed.
Lemma subset_has s t : SetReach vok s -> SetReach vok t -> s_isSubsetOf s t = Ok true <-> forall w, vok w -> Has s w -> Has t w.
Proof. intros Hs Ht. destruct (c06_isSubsetOf s t Hs Ht) as (b & -> & Hb). rewrite <- Hb. split; congruence. Qed.

(** The results are sets made by the library. *)
Lemma unionN_reach ss r : (forall s, In s ss -> SetReach vok s) -> s_unionN ss = Ok r -> SetReach vok r.
Proof.
  intros Hs. unfold s_unionN. assert (H0 : SetReach vok (@s_empty T)) by constructor. revert H0. generalize (@s_empty T). induction ss as [|s ss IH]; cbn [foldM]; intros a Ha Er.
  - congruence.
  - destruct (s_union a s) as [b| |] eqn:Eb; try discriminate. apply (IH (fun x Hx => Hs x (or_intror Hx)) b); auto. apply (sr_union _ _ _ a s); auto. apply Hs; left; auto.
Qed.
Lemma interN_reach s ss r : SetReach vok s -> (forall t, In t ss -> SetReach vok t) -> s_intersectionN (s :: ss) = Ok r -> SetReach vok r.
Proof.
  intros Hs Hss. unfold s_intersectionN. assert (H : forall t, In t (s :: ss) -> SetReach vok t) by (intros t [<-|Ht]; auto). clear Hss.
  revert H. generalize (s :: ss). intros l. revert s Hs. induction l as [|t l IH]; cbn [foldM]; intros a Ha Hl Er.
  - congruence.
  - destruct (s_intersection a t) as [b| |] eqn:Eb; try discriminate. apply (IH b); auto.
    + apply (sr_intersection _ _ _ a t); auto. apply Hl; left; auto.
    + intros x Hx. apply Hl. right. auto.
Qed.
Lemma unionN_has ss r w : (forall s, In s ss -> SetReach vok s) -> s_unionN ss = Ok r -> vok w -> Has r w <-> exists s, In s ss /\ Has s w.
Proof. intros Hs Er Hw. apply (has_answers r _ w (c15_unionN ss r Hs Er) Hw). Qed.
Lemma interN_has s ss r w : SetReach vok s -> (forall t, In t ss -> SetReach vok t) -> s_intersectionN (s :: ss) = Ok r -> vok w ->
  Has r w <-> forall t, In t (s :: ss) -> Has t w.
Proof.
  intros Hs Hss Er Hw. destruct (c15_intersectionN s ss Hs Hss) as (r' & Er' & A). assert (r' = r) as -> by congruence. rewrite (has_answers r _ w A Hw). split.
  - intros [H1 H2] t [<-|Ht]; auto.
  - intros H. split; [apply H; left; auto|]. intros t Ht. apply H. right. auto.
Qed.

(** Order and repetition of the operands make no difference, nor which of several Equal sets is given. *)
Lemma c81_union_same ss ts r q : (forall s, In s ss -> SetReach vok s) -> (forall t, In t ts -> SetReach vok t) -> SameSets ss ts ->
  s_unionN ss = Ok r -> s_unionN ts = Ok q -> s_equal r q = Ok true.
Proof.
  intros Hs Ht [H1 H2] Er Eq. apply equal_has; [apply (unionN_reach ss); auto|apply (unionN_reach ts); auto|]. intros w Hw.
  rewrite (unionN_has ss r w), (unionN_has ts q w) by auto. split.
  - intros (s & Hi & Hh). destruct (H1 s Hi) as (t & Hi' & He). exists t. split; auto. apply (proj1 (equal_has s t (Hs s Hi) (Ht t Hi')) He w Hw); auto.
  - intros (t & Hi & Hh). destruct (H2 t Hi) as (s & Hi' & He). exists s. split; auto. apply (proj1 (equal_has s t (Hs s Hi') (Ht t Hi)) He w Hw); auto.
Qed.
Lemma c81_intersection_same s ss t ts : (forall x, In x (s :: ss) -> SetReach vok x) -> (forall x, In x (t :: ts) -> SetReach vok x) -> SameSets (s :: ss) (t :: ts) ->
  exists r q, s_intersectionN (s :: ss) = Ok r /\ s_intersectionN (t :: ts) = Ok q /\ s_equal r q = Ok true.
Proof.
  intros Hs Ht [H1 H2]. destruct (c15_intersectionN s ss (Hs s (or_introl eq_refl)) (fun x Hx => Hs x (or_intror Hx))) as (r & Er & _).
  destruct (c15_intersectionN t ts (Ht t (or_introl eq_refl)) (fun x Hx => Ht x (or_intror Hx))) as (q & Eq & _). exists r, q. do 2 (split; auto).
  assert (A1 := Hs s (or_introl eq_refl)). assert (A2 := fun x Hx => Hs x (or_intror Hx)). assert (B1 := Ht t (or_introl eq_refl)). assert (B2 := fun x Hx => Ht x (or_intror Hx)).
  apply equal_has; [apply (interN_reach s ss); auto|apply (interN_reach t ts); auto|]. intros w Hw.
  rewrite (interN_has s ss r w), (interN_has t ts q w) by auto. split; intros H x Hx.
  - destruct (H2 x Hx) as (y & Hy & He). apply (proj1 (equal_has y x (Hs y Hy) (Ht x Hx)) He w Hw); auto.
  - destruct (H1 x Hx) as (y & Hy & He). apply (proj1 (equal_has x y (Hs x Hx) (Ht y Hy)) He w Hw); auto.
Qed.

(** Of one set and of two sets they are that set and the methods' results. *)
Lemma c81_one s r : SetReach vok s -> s_unionN [s] = Ok r -> s_equal r s = Ok true /\ exists q, s_intersectionN [s] = Ok q /\ s_equal q s = Ok true.
Proof.
  intros Hs Er. assert (H1 : forall x, In x [s] -> SetReach vok x) by (intros x [<-|[]]; auto). assert (H0 : forall x, In x (@nil (set T)) -> SetReach vok x) by (intros x []).
  split.
  - apply equal_has; auto; [apply (unionN_reach [s]); auto|]. intros w Hw. rewrite (unionN_has [s] r w) by auto. split; [intros (x & [<-|[]] & H); auto|]. intros H. exists s. split; auto. left. auto.
  - destruct (c15_intersectionN s [] Hs H0) as (q & Eq & _). exists q. split; auto. apply equal_has; auto; [apply (interN_reach s []); auto|]. intros w Hw.
    rewrite (interN_has s [] q w) by auto. split; [intros H; apply H; left; auto|]. intros H x [<-|[]]. auto.
Qed.
Lemma c81_two s t r u : SetReach vok s -> SetReach vok t -> s_unionN [s; t] = Ok r -> s_union s t = Ok u ->
  s_equal r u = Ok true /\ exists q i, s_intersectionN [s; t] = Ok q /\ s_intersection s t = Ok i /\ s_equal q i = Ok true.
Proof.
  intros Hs Ht Er Eu. assert (H2 : forall x, In x [s; t] -> SetReach vok x) by (intros x [<-|[<-|[]]]; auto). assert (H1 : forall x, In x [t] -> SetReach vok x) by (intros x [<-|[]]; auto).
  split.
  - apply equal_has; [apply (unionN_reach [s; t]); auto|apply (sr_union _ _ _ s t); auto|]. intros w Hw. rewrite (unionN_has [s; t] r w), (has_answers u _ w (proj1 (c02_union s t u Hs Ht Eu)) Hw) by auto. split.
    + intros (x & [<-|[<-|[]]] & H); auto.
    + intros [H|H]; [exists s|exists t]; split; auto; [left|right; left]; auto.
  - destruct (c15_intersectionN s [t] Hs H1) as (q & Eq & _). destruct (c02_intersection s t Hs Ht) as (i & Ei & Ai & _). exists q, i. do 2 (split; auto).
    apply equal_has; [apply (interN_reach s [t]); auto|apply (sr_intersection _ _ _ s t); auto|]. intros w Hw. rewrite (interN_has s [t] q w), (has_answers i _ w Ai Hw) by auto. split.
    + intros H. split; apply H; [left|right; left]; auto.
    + intros [Ha Hb] x [<-|[<-|[]]]; auto.
Qed.

(** Operands can be taken together in groups. *)
Lemma c81_union_nested (sss : list (list (set T))) rs a b : (forall ss s, In ss sss -> In s ss -> SetReach vok s) ->
  Forall2 (fun ss r => s_unionN ss = Ok r) sss rs -> s_unionN rs = Ok a -> s_unionN (concat sss) = Ok b -> s_equal a b = Ok true.
Proof.
  intros Hs HF Ea Eb.
  assert (Hc : forall s, In s (concat sss) -> SetReach vok s) by (intros s H; apply in_concat in H as (l & H1 & H2); apply (Hs l s); auto).
  assert (H1 : forall r, In r rs -> exists ss, In ss sss /\ s_unionN ss = Ok r).
  { clear - HF. induction HF as [|ss r sss rs H HF IH]; intros x []; [subst; exists ss; split; auto; left; auto|]. destruct (IH x) as (ss' & H1 & H2); auto. exists ss'. split; auto. right. auto. }
  assert (H2 : forall ss, In ss sss -> exists r, In r rs /\ s_unionN ss = Ok r).
  { clear - HF. induction HF as [|ss r sss rs H HF IH]; intros x []; [subst; exists r; split; auto; left; auto|]. destruct (IH x) as (r' & H1 & H2); auto. exists r'. split; auto. right. auto. }
  assert (Hr : forall r, In r rs -> SetReach vok r) by (intros r Hi; destruct (H1 r Hi) as (ss & Hi' & Er); apply (unionN_reach ss r); auto; intros s Hss; apply (Hs ss s); auto).
  apply equal_has; [apply (unionN_reach rs); auto|apply (unionN_reach (concat sss)); auto|]. intros w Hw. rewrite (unionN_has rs a w), (unionN_has (concat sss) b w) by auto. split.
  - intros (r & Hi & Hh). destruct (H1 r Hi) as (ss & Hi' & Er). destruct (proj1 (unionN_has ss r w (fun s => Hs ss s Hi') Er Hw) Hh) as (s & Hs' & Hh').
    exists s. split; auto. apply in_concat. exists ss. auto.
  - intros (s & Hi & Hh). apply in_concat in Hi as (ss & Hi & Hs'). destruct (H2 ss Hi) as (r & Hr' & Er). exists r. split; auto. apply (unionN_has ss r w); auto; [intros x Hx; apply (Hs ss x); auto|]. exists s. auto.
Qed.

(** Each operand is within the Union, and the Intersection is within each operand; nothing smaller or larger is. *)
Lemma c81_bounds s ss u : (forall x, In x (s :: ss) -> SetReach vok x) -> s_unionN (s :: ss) = Ok u ->
  exists i, s_intersectionN (s :: ss) = Ok i /\
    (forall x, In x (s :: ss) -> s_isSubsetOf x u = Ok true /\ s_isSubsetOf i x = Ok true) /\
    (forall t, SetReach vok t -> (s_isSubsetOf u t = Ok true <-> forall x, In x (s :: ss) -> s_isSubsetOf x t = Ok true)) /\
    (forall t, SetReach vok t -> (s_isSubsetOf t i = Ok true <-> forall x, In x (s :: ss) -> s_isSubsetOf t x = Ok true)).
Proof.
  intros Hs Eu. assert (A1 := Hs s (or_introl eq_refl)). assert (A2 := fun x Hx => Hs x (or_intror Hx)). destruct (c15_intersectionN s ss A1 A2) as (i & Ei & _). exists i. split; auto.
  assert (Ru : SetReach vok u) by (apply (unionN_reach (s :: ss)); auto). assert (Ri : SetReach vok i) by (apply (interN_reach s ss); auto).
  split; [|split].
  - intros x Hx. split; apply subset_has; auto; intros w Hw Hh.
    + apply (unionN_has (s :: ss) u w); auto. exists x. auto.
    + apply (proj1 (interN_has s ss i w A1 A2 Ei Hw) Hh). auto.
  - intros t Ht. rewrite (subset_has u t Ru Ht). split.
    + intros H x Hx. apply subset_has; auto. intros w Hw Hh. apply H; auto. apply (unionN_has (s :: ss) u w); auto. exists x. auto.
    + intros H w Hw Hh. destruct (proj1 (unionN_has (s :: ss) u w Hs Eu Hw) Hh) as (x & Hx & Hh'). apply (proj1 (subset_has x t (Hs x Hx) Ht) (H x Hx) w Hw Hh').
  - intros t Ht. rewrite (subset_has t i Ht Ri). split.
    + intros H x Hx. apply subset_has; auto. intros w Hw Hh. apply (proj1 (interN_has s ss i w A1 A2 Ei Hw) (H w Hw Hh)). auto.
    + intros H w Hw Hh. apply (interN_has s ss i w A1 A2 Ei Hw). intros x Hx. apply (proj1 (subset_has t x Ht (Hs x Hx)) (H x Hx) w Hw Hh).
Qed.

(** Intersection distributes over Union, and Difference turns a Union into an Intersection. *)
Lemma c81_distribute s ts us u v : SetReach vok s -> (forall t, In t ts -> SetReach vok t) -> Forall2 (fun t x => s_intersection s t = Ok x) ts us ->
  s_unionN ts = Ok u -> s_unionN us = Ok v -> exists w, s_intersection s u = Ok w /\ s_equal w v = Ok true.
Proof.
  intros Hs Ht HF Eu Ev. assert (Ru : SetReach vok u) by (apply (unionN_reach ts); auto). destruct (c02_intersection s u Hs Ru) as (w & Ew & Aw & _). exists w. split; auto.
  assert (H1 : forall x, In x us -> exists t, In t ts /\ s_intersection s t = Ok x).
  { clear - HF. induction HF as [|t y ts us H HF IH]; intros x []; [subst; exists t; split; auto; left; auto|]. destruct (IH x) as (t' & H1 & H2); auto. exists t'. split; auto. right. auto. }
  assert (H2 : forall t, In t ts -> exists x, In x us /\ s_intersection s t = Ok x).
  { clear - HF. induction HF as [|t y ts us H HF IH]; intros x []; [subst; exists y; split; auto; left; auto|]. destruct (IH x) as (t' & H1 & H2); auto. exists t'. split; auto. right. auto. }
  assert (Hu : forall x, In x us -> SetReach vok x) by (intros x Hx; destruct (H1 x Hx) as (t & Hi & Ex); apply (sr_intersection _ _ _ s t); auto).
  apply equal_has; [apply (sr_intersection _ _ _ s u); auto|apply (unionN_reach us); auto|]. intros z Hz.
  rewrite (has_answers w _ z Aw Hz), (unionN_has ts u z), (unionN_has us v z) by auto. split.
  - intros [Ha (t & Hi & Hb)]. destruct (H2 t Hi) as (x & Hx & Ex). exists x. split; auto. destruct (c02_intersection s t Hs (Ht t Hi)) as (x' & Ex' & Ax & _).
    assert (x' = x) as -> by congruence. apply (has_answers x _ z Ax Hz). auto.
  - intros (x & Hx & Hh). destruct (H1 x Hx) as (t & Hi & Ex). destruct (c02_intersection s t Hs (Ht t Hi)) as (x' & Ex' & Ax & _).
    assert (x' = x) as -> by congruence. destruct (proj1 (has_answers x _ z Ax Hz) Hh) as [Ha Hb]. split; auto. exists t. auto.
Qed.
Lemma c81_difference s t ts d ds u v : SetReach vok s -> (forall x, In x (t :: ts) -> SetReach vok x) -> Forall2 (fun x y => s_difference s x = Ok y) (t :: ts) (d :: ds) ->
  s_unionN (t :: ts) = Ok u -> s_intersectionN (d :: ds) = Ok v -> exists w, s_difference s u = Ok w /\ s_equal w v = Ok true.
Proof.
  intros Hs Ht HF Eu Ev. assert (Ru : SetReach vok u) by (apply (unionN_reach (t :: ts)); auto). destruct (c02_difference s u Hs Ru) as (w & Ew & Aw & _). exists w. split; auto.
  assert (H1 : forall x, In x (d :: ds) -> exists y, In y (t :: ts) /\ s_difference s y = Ok x).
  { clear - HF. induction HF as [|a y l1 l2 H HF IH]; intros x []; [subst; exists a; split; auto; left; auto|]. destruct (IH x) as (t' & H1 & H2); auto. exists t'. split; auto. right. auto. }
  assert (H2 : forall y, In y (t :: ts) -> exists x, In x (d :: ds) /\ s_difference s y = Ok x).
  { clear - HF. induction HF as [|a y l1 l2 H HF IH]; intros x []; [subst; exists y; split; auto; left; auto|]. destruct (IH x) as (t' & H1 & H2); auto. exists t'. split; auto. right. auto. }
  assert (Hd : forall x, In x (d :: ds) -> SetReach vok x) by (intros x Hx; destruct (H1 x Hx) as (y & Hi & Ex); apply (sr_difference _ _ _ s y); auto).
  assert (D1 := Hd d (or_introl eq_refl)). assert (D2 := fun x Hx => Hd x (or_intror Hx)).
  assert (Hone : forall x y z, In y (t :: ts) -> s_difference s y = Ok x -> vok z -> Has x z <-> Has s z /\ ~ Has y z).
  { intros x y z Hi Ex Hz. destruct (c02_difference s y Hs (Ht y Hi)) as (x' & Ex' & Ax & _). assert (x' = x) as -> by congruence. apply (has_answers x _ z Ax Hz). }
  apply equal_has; [apply (sr_difference _ _ _ s u); auto|apply (interN_reach d ds); auto|]. intros z Hz.
  rewrite (has_answers w _ z Aw Hz), (unionN_has (t :: ts) u z), (interN_has d ds v z) by auto. split.
  - intros [Ha Hn] x Hx. destruct (H1 x Hx) as (y & Hi & Ex). apply (Hone x y z Hi Ex Hz). split; auto. intros Hy. apply Hn. exists y. auto.
  - intros H. split.
    + destruct (H1 d (or_introl eq_refl)) as (y & Hi & Ex). apply (Hone d y z Hi Ex Hz). apply H. left. auto.
    + intros (y & Hi & Hy). destruct (H2 y Hi) as (x & Hx & Ex). destruct (proj1 (Hone x y z Hi Ex Hz) (H x Hx)) as [_ Hn]. auto.
Qed.
End Nary.
