(** * SpecVar: which values of FROZEN_CONCURRENCY mean what (C70; internal/pkg/depth/gauge.go:19-32). *)
From Coq Require Import String Ascii.
From Verif Require Import Base Config.
Local Open Scope Z_scope.

(** A non-empty text of decimal digits and the number it stands for, each digit counting for its power of ten. *)
Inductive Numeral : string -> Z -> Prop :=
| num_last d : 0 <= d <= 9 -> Numeral (String (ascii_of_N (Z.to_N (48 + d))) EmptyString) d
| num_more d s v : 0 <= d <= 9 -> Numeral s v -> Numeral (String (ascii_of_N (Z.to_N (48 + d))) s) (d * 10 ^ Z.of_nat (String.length s) + v).

Lemma digit_some c d : digit c = Some d <-> 0 <= d <= 9 /\ c = ascii_of_N (Z.to_N (48 + d)).
Proof.
  unfold digit. split.
  - destruct ((48 <=? N_of_ascii c) && (N_of_ascii c <=? 57))%N eqn:Ec; [|discriminate]. intros H. injection H as <-.
    apply andb_prop in Ec as [H1 H2]. apply N.leb_le in H1. apply N.leb_le in H2. split; [lia|].
    replace (Z.to_N (48 + (Z.of_N (N_of_ascii c) - 48))) with (N_of_ascii c) by lia. symmetry. apply ascii_N_embedding.
  - intros [Hd ->]. rewrite N_ascii_embedding by lia.
    replace (48 <=? Z.to_N (48 + d))%N with true by (symmetry; apply N.leb_le; lia).
    replace (Z.to_N (48 + d) <=? 57)%N with true by (symmetry; apply N.leb_le; lia). cbn [andb]. f_equal. lia.
Qed.

Lemma numeral_inv c s v : Numeral (String c s) v ->
  exists d, digit c = Some d /\ ((s = EmptyString /\ v = d) \/ exists v', Numeral s v' /\ v = d * 10 ^ Z.of_nat (String.length s) + v').
Proof.
  intros H. remember (String c s) as t eqn:Et. destruct H as [d Hd|d s1 v1 Hd H1]; assert (digit (ascii_of_N (Z.to_N (48 + d))) = Some d) as Hc by (apply digit_some; auto).
  - exists d. split; [congruence|]. left. split; auto. congruence.
  - exists d. assert (s1 = s) as -> by congruence. split; [congruence|]. right. eauto.
Qed.
Lemma numeral_empty v : ~ Numeral EmptyString v.
Proof. intros H. remember EmptyString as t eqn:Et. destruct H; discriminate. Qed.

Lemma digits_num s : forall acc z, s <> EmptyString ->
  digits acc s = Some z <-> exists v, Numeral s v /\ z = acc * 10 ^ Z.of_nat (String.length s) + v.
Proof.
  induction s as [|c s IH]; intros acc z Hs; [congruence|]. cbn [digits String.length]. destruct (digit c) as [d|] eqn:Ed.
  - pose proof (proj1 (digit_some c d) Ed) as [Hd Hc]. rewrite Nat2Z.inj_succ, Z.pow_succ_r by lia. destruct s as [|c' s'].
    + cbn [digits String.length]. change (Z.of_nat 0) with 0. rewrite Z.pow_0_r. split.
      * intros H. assert (z = 10 * acc + d) as -> by congruence. exists d. split; [rewrite Hc; constructor; auto|]. lia.
      * intros (v & Hv & ->). f_equal. apply numeral_inv in Hv as (d' & Ed' & [[_ ->]|(v' & Hv & _)]); [|destruct (numeral_empty _ Hv)].
        assert (d' = d) as -> by congruence. lia.
    + rewrite IH by discriminate. split.
      * intros (v & Hv & ->). exists (d * 10 ^ Z.of_nat (String.length (String c' s')) + v). split; [rewrite Hc; constructor; auto|]. ring.
      * intros (v & Hv & ->). apply numeral_inv in Hv as (d' & Ed' & [[H _]|(v' & Hv & ->)]); [discriminate|].
        exists v'. split; auto. assert (d' = d) as -> by congruence. ring.
  - split; [discriminate|]. intros (v & Hv & _). apply numeral_inv in Hv as (d & Hd & _). congruence.
Qed.

Lemma unsigned_num s z : unsigned s = Some z <-> Numeral s z.
Proof.
  destruct s as [|c s]; cbn [unsigned].
  - split; [discriminate|]. intros H. destruct (numeral_empty _ H).
  - rewrite digits_num by discriminate. split; [intros (v & Hv & ->); auto|]. intros H. exists z. split; auto.
Qed.

(** No numeral begins with a sign. *)
Lemma numeral_sign c s v : Numeral (String c s) v -> c <> "-"%char /\ c <> "+"%char.
Proof.
  intros H. apply numeral_inv in H as (d & H & _). apply digit_some in H as [Hd ->].
  split; intros Hc; apply (f_equal N_of_ascii) in Hc; rewrite N_ascii_embedding in Hc by lia.
  - change (N_of_ascii "-") with 45%N in Hc. lia.
  - change (N_of_ascii "+") with 43%N in Hc. lia.
Qed.

(** "off" in upper and lower case, and nothing else, switches goroutines off (compare C70_off). *)
Lemma c70_spellings v : toLower v = "off"%string <->
  In v ["off"; "ofF"; "oFf"; "oFF"; "Off"; "OfF"; "OFf"; "OFF"]%string.
Proof.
  split.
  - assert (L : forall c d, lower c = d -> In d ["o"; "f"]%char -> c = d \/ N_of_ascii c = (N_of_ascii d - 32)%N).
    { intros c d <- Hd. unfold lower in *. destruct ((65 <=? N_of_ascii c) && (N_of_ascii c <=? 90))%N eqn:Ec; auto. right.
      apply andb_prop in Ec as [H1 H2]. apply N.leb_le in H1. apply N.leb_le in H2. rewrite N_ascii_embedding by lia. lia. }
    intros H. destruct v as [|a [|b [|c [|d v]]]]; try discriminate. cbn [toLower] in H. injection H as Ha Hb Hc.
    apply L in Ha; [|cbn; auto]. apply L in Hb; [|cbn; auto]. apply L in Hc; [|cbn; auto].
    assert (U : forall c, N_of_ascii c = 70%N -> c = "F"%char) by (intros x Hx; rewrite <- (ascii_N_embedding x), Hx; reflexivity).
    assert (O : forall c, N_of_ascii c = 79%N -> c = "O"%char) by (intros x Hx; rewrite <- (ascii_N_embedding x), Hx; reflexivity).
    cbn in Ha, Hb, Hc.
    destruct Ha as [->|Ha]; [|apply O in Ha as ->]; (destruct Hb as [->|Hb]; [|apply U in Hb as ->]); (destruct Hc as [->|Hc]; [|apply U in Hc as ->]);
      cbn; auto 10.
  - cbn [In]. intros H. repeat destruct H as [H|H]; try contradiction; subst v; reflexivity.
Qed.

(** Atoi accepts a numeral that fits into an int, with a plus, a minus or no sign before it, and nothing else. *)
Lemma c70_atoi s z : atoi s = Some z <->
  - 2 ^ 63 <= z < 2 ^ 63 /\
  (Numeral s z \/ (exists s', s = String "+"%char s' /\ Numeral s' z) \/ (exists s', s = String "-"%char s' /\ Numeral s' (- z))).
Proof.
  assert (R : forall o : option Z, match o with Some z => if (- 2 ^ 63 <=? z) && (z <? 2 ^ 63) then Some z else None | None => None end = Some z <->
    - 2 ^ 63 <= z < 2 ^ 63 /\ o = Some z).
  { intros [y|]; [|split; [discriminate|intros [_ H]; discriminate]].
    destruct ((- 2 ^ 63 <=? y) && (y <? 2 ^ 63)) eqn:Ey.
    - apply andb_prop in Ey as [H1 H2]. apply Z.leb_le in H1. apply Z.ltb_lt in H2. split.
      + intros H. injection H as ->. auto.
      + tauto.
    - split; [discriminate|]. intros [H H1]. injection H1 as ->. apply andb_false_iff in Ey as [Ey|Ey];
        [apply Z.leb_gt in Ey|apply Z.ltb_ge in Ey]; lia. }
  unfold atoi. rewrite R. clear R. set (B := - 2 ^ 63 <= z < 2 ^ 63). assert (HH : forall P Q : Prop, (P <-> Q) -> (B /\ P <-> B /\ Q)) by tauto. apply HH. clear HH B.
  destruct s as [|c s].
  - split; [discriminate|]. intros [H|[(s' & H & _)|(s' & H & _)]]; [destruct (numeral_empty _ H)|discriminate|discriminate].
  - destruct (ascii_dec c "-") as [->|Hm]; [|destruct (ascii_dec c "+") as [->|Hp]].
    + split.
      * destruct (unsigned s) as [y|] eqn:Eu; [|discriminate]. intros H. injection H as <-. right. right. exists s. split; auto.
        rewrite Z.opp_involutive. apply unsigned_num; auto.
      * intros [H|[(s' & H & _)|(s' & H & H1)]]; [apply numeral_sign in H; tauto|discriminate|]. injection H as <-.
        apply unsigned_num in H1. rewrite H1. f_equal. lia.
    + rewrite unsigned_num. split.
      * intros H. right. left. eauto.
      * intros [H|[(s' & H & H1)|(s' & H & _)]]; [apply numeral_sign in H; tauto| |discriminate]. injection H as <-. auto.
    + replace (match String c s with String "-"%char s' => match unsigned s' with Some v => Some (- v) | None => None end
                | String "+"%char s' => unsigned s' | _ => unsigned (String c s) end) with (unsigned (String c s)).
      * rewrite unsigned_num. split; auto. intros [H|[(s' & H & _)|(s' & H & _)]]; auto; congruence.
      * destruct c as [[] [] [] [] [] [] [] []]; try reflexivity; congruence.
Qed.

(** The limit is thus the largest int for "off", the number for a numeral that fits, and 15 for any other value. *)
Lemma c70_setting v :
  (In v ["off"; "ofF"; "oFf"; "oFF"; "Off"; "OfF"; "OFf"; "OFF"]%string /\ maxConcurrencyOf v = 2 ^ 63 - 1) \/
  (exists z, atoi v = Some z /\ maxConcurrencyOf v = z) \/
  (toLower v <> "off"%string /\ atoi v = None /\ maxConcurrencyOf v = 15).
Proof.
  unfold maxConcurrencyOf. destruct (String.eqb (toLower v) "off") eqn:El.
  - left. apply String.eqb_eq in El. split; auto. apply c70_spellings; auto.
  - apply String.eqb_neq in El. destruct (atoi v) as [z|] eqn:Ea; right; eauto.
Qed.
