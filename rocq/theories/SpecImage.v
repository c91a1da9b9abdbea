(** * SpecImage: the laws of SetMap (C80). Images of images, of unions, intersections and selections, and how large images are. *)
From Coq Require Import Permutation.
From Verif Require Import Base Bits Env EnvFacts Node NodeWf NodeBin NodeBin2 NodeUn Iter Tree TreeFacts SetApi SetFacts MapApi MapFacts Reach Spec SpecSet SpecMap SpecShape SpecLaws SpecTally.

(** The function takes values of one kind to values of the other, and equal values to equal values. *)
Definition Takes {T U} {K : Key T} {KU : Key U} (vok : T -> Prop) (uok : U -> Prop) (f : T -> U) : Prop :=
  (forall v, vok v -> uok (f v)) /\ forall a b, vok a -> vok b -> veq a b = true -> veq (f a) (f b) = true.
(** It takes unequal values to unequal values. *)
Definition Injects {T U} {K : Key T} {KU : Key U} (vok : T -> Prop) (f : T -> U) : Prop :=
  forall a b, vok a -> vok b -> veq (f a) (f b) = true -> veq a b = true.

Section Image.
Context {E : Env} {HE : EnvOk E} {T U : Type} {K : Key T} {KU : Key U} {vok : T -> Prop} {uok : U -> Prop} {KO : KeyOk K vok} {KOU : KeyOk KU uok}.
Local Opaque maxTreeDepth fanout fb.

Lemma has_holds (s : set T) v : SetReach vok s -> vok v -> Has s v <-> exists e, Holds s e /\ vok e /\ veq e v = true.
Proof.
  intros Hs Hv. destruct (c01_has s v Hs Hv) as (b & Eb & Hb). unfold Has. rewrite Eb. split.
  - intros H. injection H as ->. destruct (proj1 Hb eq_refl) as (e & He & Hq). exists e. split; auto. split; auto. apply (holds_ok (vok := vok) s e); auto. apply sreach_ok; auto.
  - intros (e & He & _ & Hq). f_equal. apply Hb. exists e. auto.
Qed.

(** SetMap (set.go:217-219) gives the image. *)
Lemma image (s : set T) (f : T -> U) : SetReach vok s -> Takes vok uok f ->
  exists r, s_map s f = Ok r /\ SetReach uok r /\ forall w, uok w -> Has r w <-> exists v, vok v /\ Has s v /\ veq (f v) w = true.
Proof.
  intros Hs [F1 F2]. assert (Hh : forall e, Holds s e -> vok e) by (intros e He; apply (holds_ok (vok := vok) s e); auto; apply sreach_ok; auto).
  destruct (c09_map (uok := uok) s f Hs) as (r & Er & Ar & _); [auto|]. exists r. split; auto. split; [apply (sr_map T K vok U KU uok s f r); auto|].
  intros w Hw. rewrite <- isIn_has, (answers_isIn (vok := uok) r _ w Ar Hw). split.
  - intros (e & He & Hq). exists e. split; auto. split; auto. apply has_holds; auto. exists e. split; auto. split; auto. apply veq_refl; auto.
  - intros (v & Hv & Hi & Hq). apply has_holds in Hi as (e & He & Ho & Hq'); auto. exists e. split; auto. apply (veq_trans (vok := uok) _ (f v) w); auto.
Qed.
Lemma imageOf (s : set T) (f : T -> U) r : SetReach vok s -> Takes vok uok f -> s_map s f = Ok r ->
  SetReach uok r /\ forall w, uok w -> Has r w <-> exists v, vok v /\ Has s v /\ veq (f v) w = true.
Proof. intros Hs HF Er. destruct (image s f Hs HF) as (r' & Er' & H). assert (r' = r) as -> by congruence. auto. Qed.

(** Inclusion and equality carry over to images. *)
Lemma c80_subset (s t : set T) (f : T -> U) : SetReach vok s -> SetReach vok t -> Takes vok uok f -> s_isSubsetOf s t = Ok true ->
  exists a b, s_map s f = Ok a /\ s_map t f = Ok b /\ s_isSubsetOf a b = Ok true.
Proof.
  intros Hs Ht HF H. destruct (image s f Hs HF) as (a & Ea & Ra & Ia), (image t f Ht HF) as (b & Eb & Rb & Ib). exists a, b. do 2 (split; auto).
  destruct (c06_isSubsetOf s t Hs Ht) as (x & Ex & Hx). assert (x = true) as -> by congruence.
  destruct (c06_isSubsetOf a b Ra Rb) as (y & -> & Hy). f_equal. apply Hy. intros w Hw. rewrite Ia, Ib by auto. intros (v & Hv & Hi & Hq).
  exists v. split; auto. split; auto. apply (proj1 Hx eq_refl); auto.
Qed.
Lemma c80_equal (s t : set T) (f : T -> U) : SetReach vok s -> SetReach vok t -> Takes vok uok f -> s_equal s t = Ok true ->
  exists a b, s_map s f = Ok a /\ s_map t f = Ok b /\ s_equal a b = Ok true.
Proof.
  intros Hs Ht HF H. destruct (image s f Hs HF) as (a & Ea & Ra & Ia), (image t f Ht HF) as (b & Eb & Rb & Ib). exists a, b. do 2 (split; auto).
  destruct (c05_equal s t Hs Ht) as (x & Ex & Hx). assert (x = true) as -> by congruence. pose proof (proj1 Hx eq_refl) as HS.
  destruct (c05_equal a b Ra Rb) as (y & -> & Hy). f_equal. apply Hy. intros w Hw. rewrite Ia, Ib by auto.
  split; intros (v & Hv & Hi & Hq); exists v; split; auto; split; auto; apply (HS v Hv); auto.
Qed.

(** The image of a Union is the Union of the images. *)
Lemma c80_union (s t u : set T) (f : T -> U) a b c : SetReach vok s -> SetReach vok t -> Takes vok uok f -> s_union s t = Ok u ->
  s_map s f = Ok a -> s_map t f = Ok b -> s_union a b = Ok c -> exists r, s_map u f = Ok r /\ s_equal r c = Ok true.
Proof.
  intros Hs Ht HF Eu Ea Eb Ec. destruct (imageOf s f a Hs HF Ea) as [Ra Ia], (imageOf t f b Ht HF Eb) as [Rb Ib].
  assert (Ru : SetReach vok u) by (apply (sr_union _ _ _ s t); auto). assert (Rc : SetReach uok c) by (apply (sr_union _ _ _ a b); auto).
  destruct (image u f Ru HF) as (r & Er & Rr & Ir). exists r. split; auto. destruct (c02_union s t u Hs Ht Eu) as [Au _], (c02_union a b c Ra Rb Ec) as [Ac _].
  destruct (c05_equal r c Rr Rc) as (y & -> & Hy). f_equal. apply Hy. intros w Hw. rewrite Ir, <- (isIn_has c), (answers_isIn (vok := uok) c _ w Ac Hw), Ia, Ib by auto.
  split.
  - intros (v & Hv & Hi & Hq). rewrite <- isIn_has, (answers_isIn (vok := vok) u _ v Au Hv) in Hi. destruct Hi; [left|right]; exists v; auto.
  - intros [(v & Hv & Hi & Hq)|(v & Hv & Hi & Hq)]; exists v; (split; [auto|]); (split; [|auto]); rewrite <- isIn_has, (answers_isIn (vok := vok) u _ v Au Hv); auto.
Qed.

(** The image of an Intersection is within the Intersection of the images, and the same if the function takes unequal values to
    unequal values. *)
Lemma c80_intersection (s t : set T) (f : T -> U) : SetReach vok s -> SetReach vok t -> Takes vok uok f ->
  exists i r a b c, s_intersection s t = Ok i /\ s_map i f = Ok r /\ s_map s f = Ok a /\ s_map t f = Ok b /\ s_intersection a b = Ok c /\
    s_isSubsetOf r c = Ok true /\ (Injects vok f -> s_equal r c = Ok true).
Proof.
  intros Hs Ht HF. destruct (image s f Hs HF) as (a & Ea & Ra & Ia), (image t f Ht HF) as (b & Eb & Rb & Ib).
  destruct (c02_intersection s t Hs Ht) as (i & Ei & Ai & _), (c02_intersection a b Ra Rb) as (c & Ec & Ac & _).
  assert (Ri : SetReach vok i) by (apply (sr_intersection _ _ _ s t); auto). assert (Rc : SetReach uok c) by (apply (sr_intersection _ _ _ a b); auto).
  destruct (image i f Ri HF) as (r & Er & Rr & Ir). exists i, r, a, b, c. do 5 (split; auto).
  assert (Hsub : forall w, uok w -> Has r w -> Has c w).
  { intros w Hw. rewrite Ir, <- (isIn_has c), (answers_isIn (vok := uok) c _ w Ac Hw), Ia, Ib by auto. intros (v & Hv & Hi & Hq).
    rewrite <- isIn_has, (answers_isIn (vok := vok) i _ v Ai Hv) in Hi. destruct Hi. split; exists v; auto. }
  split.
  - destruct (c06_isSubsetOf r c Rr Rc) as (y & -> & Hy). f_equal. apply Hy. exact Hsub.
  - intros HI. destruct (c05_equal r c Rr Rc) as (y & -> & Hy). f_equal. apply Hy. intros w Hw. split; [apply Hsub; auto|].
    rewrite Ir, <- (isIn_has c), (answers_isIn (vok := uok) c _ w Ac Hw), Ia, Ib by auto. intros [(v & Hv & Hi & Hq) (v' & Hv' & Hi' & Hq')].
    destruct HF as [F1 F2]. exists v. split; auto. split; auto. rewrite <- isIn_has, (answers_isIn (vok := vok) i _ v Ai Hv). split; auto.
    assert (Hvv : veq v' v = true).
    { apply HI; auto. apply (veq_trans (vok := uok) _ w (f v)); auto. apply (veq_sym (vok := uok)); auto. }
    apply has_holds in Hi' as (e & He & Ho & Hqe); auto. apply has_holds; auto. exists e. split; auto. split; auto. apply (veq_trans (vok := vok) _ v' v); auto.
Qed.

(** Selecting from an image is the image of a selection. *)
Lemma c80_where (s : set T) (f : T -> U) (p : U -> bool) : SetReach vok s -> Takes vok uok f -> respects uok p ->
  exists r a b c, s_map s f = Ok r /\ s_where r p = Ok a /\ s_where s (fun v => p (f v)) = Ok b /\ s_map b f = Ok c /\ s_equal a c = Ok true.
Proof.
  intros Hs HF Hp. destruct (image s f Hs HF) as (r & Er & Rr & Ir). destruct (c08_comprehension r p Rr Hp) as (a & Ea & Aa).
  destruct (c08_comprehension s (fun v => p (f v)) Hs) as (b & Eb & Ab); [intros x y Hx Hy Hq; apply Hp; destruct HF; auto|].
  assert (Ra : SetReach uok a) by (apply (sr_where _ _ _ r p); auto). assert (Rb : SetReach vok b) by (apply (sr_where _ _ _ s (fun v => p (f v))); auto).
  destruct (image b f Rb HF) as (c & Ec & Rc & Ic). exists r, a, b, c. do 4 (split; auto).
  destruct (c05_equal a c Ra Rc) as (y & -> & Hy). f_equal. apply Hy. intros w Hw. rewrite Ic, <- (isIn_has a), (answers_isIn (vok := uok) a _ w Aa Hw), Ir by auto. split.
  - intros [(v & Hv & Hi & Hq) Hpw]. exists v. split; auto. split; auto. rewrite <- isIn_has, (answers_isIn (vok := vok) b _ v Ab Hv). split; auto.
    rewrite (Hp (f v) w); auto. destruct HF; auto.
  - intros (v & Hv & Hi & Hq). rewrite <- isIn_has, (answers_isIn (vok := vok) b _ v Ab Hv) in Hi. destruct Hi as [Hi Hpv]. split; [exists v; auto|].
    rewrite <- (Hp (f v) w); auto. destruct HF; auto.
Qed.

(** An image is at most as large as the set, and as large exactly if no two of its elements have equal images. *)
Lemma c80_count (s : set T) (f : T -> U) : SetReach vok s -> Takes vok uok f ->
  exists r, s_map s f = Ok r /\ (s_count r <= s_count s)%Z /\
    (s_count r = s_count s <-> forall a b, Holds s a -> Holds s b -> veq (f a) (f b) = true -> a = b).
Proof.
  intros Hs HF. pose proof HF as [F1 F2]. assert (Hh : forall e, Holds s e -> vok e) by (intros e He; apply (holds_ok (vok := vok) s e); auto; apply sreach_ok; auto).
  destruct (c09_map (uok := uok) s f Hs) as (r & Er & Ar & Hr); [auto|]. exists r. split; auto.
  destruct Ar as (_ & lr & Elr & (R1 & R2 & R3) & ->). destruct (c03_count s Hs) as ((_ & ls & Els & (S1 & S2 & S3) & ->) & _).
  assert (ND : forall (A : Type) (KA : Key A) (ok : A -> Prop) (KOA : KeyOk KA ok) (l : list A), (forall e, In e l -> ok e) -> Unequal l -> NoDup l).
  { intros A KA ok KOA l Ho Hu. apply NoDup_nth_error. intros i j Hi Heq. destruct (Nat.eq_dec i j) as [->|Hn]; auto. exfalso.
    destruct (nth_error l i) as [x|] eqn:Ex; [|apply nth_error_None in Ex; lia]. symmetry in Heq.
    pose proof (Hu i j x x Ex Heq Hn) as Hf. rewrite (veq_refl (vok := ok)) in Hf; [discriminate|]. apply Ho. apply nth_error_In in Ex. auto. }
  assert (Ns := ND T K vok KO ls S1 S2). assert (Nr := ND U KU uok KOU lr R1 R2). clear ND.
  assert (Hin : forall e, In e ls <-> Holds s e) by (intros e; split; [exists ls; auto|intros (l & El & He); congruence]).
  assert (Hinc : incl lr (map f ls)).
  { intros u Hu. destruct (Hr u) as (e & He & ->); [exists lr; auto|]. apply in_map. apply Hin; auto. }
  assert (Hle : length lr <= length ls) by (rewrite <- (map_length f ls); apply NoDup_incl_length; auto).
  split; [lia|]. split.
  - intros Hc a b Ha Hb Hq. assert (HL : length (map f ls) <= length lr) by (rewrite map_length; lia).
    assert (Nm : NoDup (map f ls)) by (apply (NoDup_incl_NoDup Nr); auto). assert (Hinc' : incl (map f ls) lr) by (apply NoDup_length_incl; auto).
    apply Hin in Ha, Hb. pose proof (Hinc' _ (in_map f ls a Ha)) as H1. pose proof (Hinc' _ (in_map f ls b Hb)) as H2.
    apply In_nth_error in H1 as (i & Hi), H2 as (j & Hj). destruct (Nat.eq_dec i j) as [->|Hn]; [|pose proof (R2 i j _ _ Hi Hj Hn); congruence].
    assert (Hab : f a = f b) by congruence. apply In_nth_error in Ha as (x & Hx), Hb as (y & Hy).
    assert (x = y) as ->; [|congruence]. apply (proj1 (NoDup_nth_error (map f ls)) Nm); [rewrite map_length; apply nth_error_Some; congruence|].
    rewrite (map_nth_error f x ls Hx), (map_nth_error f y ls Hy). congruence.
  - intros HI. assert (Hum : Unequal (map f ls)).
    { intros i j x y Hx Hy Hn. rewrite nth_error_map in Hx, Hy. destruct (nth_error ls i) as [a|] eqn:Ha; [|discriminate]. destruct (nth_error ls j) as [b|] eqn:Hb; [|discriminate].
      cbn in Hx, Hy. assert (x = f a) as -> by congruence. assert (y = f b) as -> by congruence. destruct (veq (f a) (f b)) eqn:Hq; auto. exfalso.
      assert (a = b) as -> by (apply HI; auto; apply Hin; eapply nth_error_In; eauto).
      pose proof (S2 i j b b Ha Hb Hn) as Hf. rewrite (veq_refl (vok := vok)) in Hf; [discriminate|]. apply S1. apply nth_error_In in Hb. auto. }
    assert (Om : forall e, In e (map f ls) -> uok e) by (intros e He; apply in_map_iff in He as (x & <- & Hx); auto).
    assert (HS : sameUpToOrder (map f ls) lr).
    { apply (eqv_perm (vok := uok)); auto; [apply unequal_distinct; auto|apply unequal_distinct; auto|]. split.
      - intros e He. pose proof (Om e He) as Ho. apply in_map_iff in He as (x & <- & Hx).
        destruct (proj1 (R3 (f x) Ho)) as (u & Hu & Hq); [exists x; split; [apply Hin; auto|apply veq_refl; auto]|]. exists u. split; auto. apply (veq_sym (vok := uok)); auto.
      - intros u Hu. exists u. split; [apply Hinc; auto|apply veq_refl; auto]. }
    destruct HS as (l'' & P & F). apply Permutation_length in P. assert (length (map f ls) = length l'') by (clear - F; induction F; cbn; auto). rewrite map_length in *. lia.
Qed.
End Image.

Section Compose.
Context {E : Env} {HE : EnvOk E} {T U W : Type} {K : Key T} {KU : Key U} {KW : Key W} {vok : T -> Prop} {uok : U -> Prop} {wok : W -> Prop}
  {KO : KeyOk K vok} {KOU : KeyOk KU uok} {KOW : KeyOk KW wok}.
Local Opaque maxTreeDepth fanout fb.

(** Taking images twice is taking the image once. *)
Lemma c80_compose (s : set T) (f : T -> U) (g : U -> W) : SetReach vok s -> Takes vok uok f -> Takes uok wok g ->
  exists r a b, s_map s f = Ok r /\ s_map r g = Ok a /\ s_map s (fun v => g (f v)) = Ok b /\ s_equal a b = Ok true.
Proof.
  intros Hs HF HG. destruct (image s f Hs HF) as (r & Er & Rr & Ir). destruct (image r g Rr HG) as (a & Ea & Ra & Ia).
  assert (HC : Takes vok wok (fun v => g (f v))) by (destruct HF, HG; split; auto).
  destruct (image s (fun v => g (f v)) Hs HC) as (b & Eb & Rb & Ib). exists r, a, b. do 3 (split; auto).
  destruct (c05_equal a b Ra Rb) as (y & -> & Hy). f_equal. apply Hy. intros w Hw. rewrite Ia, Ib by auto. destruct HF as [F1 F2], HG as [G1 G2]. split.
  - intros (u & Hu & Hi & Hq). apply Ir in Hi as (v & Hv & Hi & Hq'); auto. exists v. split; auto. split; auto. apply (veq_trans (vok := wok) _ (g u) w); auto.
  - intros (v & Hv & Hi & Hq). exists (f v). split; auto. split; auto. apply Ir; auto. exists v. split; auto. split; auto. apply veq_refl; auto.
Qed.
End Compose.
