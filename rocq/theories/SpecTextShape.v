(** * SpecTextShape: how far the texts of equal sets agree (C47), from the shape of their tries (C64). *)
From Coq Require Import String Ascii Permutation.
From Verif Require Import Base Bits Env EnvFacts Node NodeWf NodeAdd Iter Tree TreeFacts SetApi SetFacts MapApi MapFacts IntSet
  IntFacts ExtraFacts Reach Spec SpecSet Text SpecText SpecShape.
Local Open Scope string_scope.

Section TextShape.
Context {E : Env} {HE : EnvOk E} {T : Type} {K : Key T} {F : Fmt T} {ZT : Zero T} {vok : T -> Prop} {KO : KeyOk K vok}.

Definition sameTexts : Prop := forall a b, vok a -> vok b -> veq a b = true -> fmt_v a = fmt_v b.
Lemma veq_texts (l l' : list T) : sameTexts -> Forall2 (fun a b => veq a b = true) l l' -> allok vok l -> allok vok l' -> map fmt_v l = map fmt_v l'.
Proof.
  intros Hf H. induction H as [|x y l l' Hxy H IH]; intros H1 H2; cbn [map]; auto. f_equal.
  - apply Hf; auto; [apply H1|apply H2]; left; auto.
  - apply IH; intros e He; [apply H1|apply H2]; right; auto.
Qed.
Lemma blocks_texts (bs bt : list (list T)) : (forall b, In b bs -> allok vok b) -> (forall b, In b bt -> allok vok b) -> sameTexts ->
  Forall2 sameUpToOrder bs bt -> Forall2 (fun l l' : list string => Permutation l l') (map (map fmt_v) bs) (map (map fmt_v) bt).
Proof.
  intros H1 H2 Hf H. induction H as [|b c bs bt (c' & P & Fb) H IH]; [constructor|]. cbn [map]. constructor.
  - rewrite (veq_texts b c' Hf Fb); [apply Permutation_map, Permutation_sym; auto|apply H1; left; auto|].
    intros e He. apply (H2 c); [left; auto|]. apply (Permutation_in e (Permutation_sym P)). auto.
  - apply IH; intros b' Hb; [apply H1|apply H2]; right; auto.
Qed.
Lemma block_ok s bs b : sok vok s -> sel s = concat bs -> In b bs -> allok vok b.
Proof. intros Hs Hb Hin e He. apply (sok_allok (vok := vok) s Hs). rewrite Hb. apply in_concat. eauto. Qed.

(** Equal sets print the same texts leaf by leaf; only within a leaf, of one or two elements or of elements of one hash, can the order differ. *)
Lemma c47_leaves s t f : SetReach vok s -> SetReach vok t -> s_equal s t = Ok true -> debugs f = false -> widthOk (fs_width f) ->
  (forall a b, vok a -> vok b -> veq a b = true -> fmt_v a = fmt_v b) ->
  exists bs bt : list (list string),
    s_format s f = Ok ("{" ++ shown (fs_width f) (concat bs) ++ "}") /\ s_format t f = Ok ("{" ++ shown (fs_width f) (concat bt) ++ "}") /\
    Forall2 (fun l l' => Permutation l l') bs bt /\ bs = map (map fmt_v) (leaveso (t_root (s_tree s))).
Proof.
  intros Hs Ht Hq Hd Hw Hf. apply c64_twins in Hq; auto. apply sreach_ok in Hs, Ht.
  exists (map (map fmt_v) (leaveso (t_root (s_tree s)))), (map (map fmt_v) (leaveso (t_root (s_tree t)))).
  assert (Es : sel s = concat (leaveso (t_root (s_tree s)))) by apply tel_leaves.
  assert (Et : sel t = concat (leaveso (t_root (s_tree t)))) by apply tel_leaves.
  rewrite !(s_format_ok (vok := vok)) by auto. rewrite <- !concat_map, <- Es, <- Et. split; auto. split; auto. split; auto.
  apply blocks_texts; auto; [intros b Hb; apply (block_ok s _ b Hs Es Hb)|intros b Hb; apply (block_ok t _ b Ht Et Hb)|].
  apply (twino_leaves (vok := vok)); auto.
Qed.

(** If every leaf has one element, equal sets have the same text. *)
Lemma c47_single s t f : SetReach vok s -> SetReach vok t -> s_equal s t = Ok true -> debugs f = false -> widthOk (fs_width f) ->
  (forall a b, vok a -> vok b -> veq a b = true -> fmt_v a = fmt_v b) ->
  (forall l, In l (leaveso (t_root (s_tree s))) -> length l = 1%nat) -> s_format s f = s_format t f.
Proof.
  intros Hs Ht Hq Hd Hw Hf H1. destruct (c47_leaves s t f Hs Ht Hq Hd Hw Hf) as (bs & bt & -> & -> & P & Eb). do 5 f_equal.
  assert (H : forall l, In l bs -> length l = 1%nat) by (intros l Hl; subst bs; apply in_map_iff in Hl; destruct Hl as (l0 & <- & Hl); rewrite map_length; auto).
  clear Eb H1. induction P as [|b c bs bt Pb P IH]; auto. cbn [concat]. rewrite IH by (intros l Hl; apply H; right; auto). f_equal.
  specialize (H b (or_introl eq_refl)). destruct b as [|x [|y b]]; cbn in H; try discriminate.
  apply Permutation_length_1_inv in Pb. auto.
Qed.
End TextShape.
