(** * SpecMapLaws: the laws of map algebra (C75). Expressions of maps are run with the library's operations and compared with what they
    mean for one key: two expressions that mean the same for every key are equal maps, and only they are. *)
From Verif Require Import Base Bits Env EnvFacts Node NodeWf NodeBin NodeBin2 NodeUn Iter Tree TreeFacts SetApi SetFacts MapApi MapFacts Reach Spec SpecSet SpecMap SpecLaws.

(** Expressions of the operations Update, Merge, Where, MapMap, Project, With and Without (map.go:71-83, 143-173, 194-212). *)
Inductive mexp (X V : Type) :=
| MVar (i : nat)
| MEmpty
| MUpdate (a b : mexp X V)
| MMerge (f : X -> V -> V -> V) (a b : mexp X V)
| MWhere (p : X -> V -> bool) (a : mexp X V)
| MMap (f : X -> V -> V) (a : mexp X V)
| MProject (ks : list X) (a : mexp X V)
| MWith (k : X) (v : V) (a : mexp X V)
| MWithout (k : X) (a : mexp X V).
Arguments MVar {X V} i. Arguments MEmpty {X V}. Arguments MUpdate {X V} a b. Arguments MMerge {X V} f a b. Arguments MWhere {X V} p a.
Arguments MMap {X V} f a. Arguments MProject {X V} ks a. Arguments MWith {X V} k v a. Arguments MWithout {X V} k a.

(** What an expression means for the key [w], for which the i-th map has the value [F i], if any. *)
Fixpoint mden {X V} {KX : Key X} (F : nat -> option V) (w : X) (e : mexp X V) : option V :=
  match e with
  | MVar i => F i
  | MEmpty => None
  | MUpdate a b => match mden F w b with Some v => Some v | None => mden F w a end
  | MMerge f a b => match mden F w a, mden F w b with Some x, Some y => Some (f w x y) | Some x, None => Some x | None, o => o end
  | MWhere p a => match mden F w a with Some v => if p w v then Some v else None | None => None end
  | MMap f a => option_map (f w) (mden F w a)
  | MProject ks a => if existsb (fun k => veq k w) ks then mden F w a else None
  | MWith k v a => if veq k w then Some v else mden F w a
  | MWithout k a => if veq k w then None else mden F w a
  end.

Section MapLaws.
Context {E : Env} {HE : EnvOk E} {X V : Type} {KX : Key X} {KV : Key V} {kok : X -> Prop} {valok : V -> Prop} {KO : KeyOk KX kok} {KOV : KeyOk KV valok} {ZV : Zero V}.
Local Opaque maxTreeDepth fanout fb.

(** Running an expression with the operations of map.go; operands are evaluated from left to right, as Go does. *)
Fixpoint mrun (rho : nat -> gomap X V) (e : mexp X V) : res (gomap X V) :=
  match e with
  | MVar i => Ok (rho i)
  | MEmpty => Ok m_empty
  | MUpdate a b => m <- mrun rho a ;; n <- mrun rho b ;; m_update m n
  | MMerge f a b => m <- mrun rho a ;; n <- mrun rho b ;; m_merge m n f
  | MWhere p a => m <- mrun rho a ;; m_where m p
  | MMap f a => m <- mrun rho a ;; m_map m f
  | MProject ks a => m <- mrun rho a ;; m_project m ks
  | MWith k v a => m <- mrun rho a ;; m_with m k v
  | MWithout k a => m <- mrun rho a ;; m_without m k
  end.

(** The keys and values in the expression are proper ones, and its functions do not tell equal keys apart. *)
Fixpoint Proper (kok : X -> Prop) (valok : V -> Prop) (e : mexp X V) : Prop :=
  match e with
  | MVar _ | MEmpty => True
  | MUpdate a b => Proper kok valok a /\ Proper kok valok b
  | MMerge f a b => (forall k k' x y, kok k -> kok k' -> veq k k' = true -> f k x y = f k' x y) /\
      (forall k x y, kok k -> valok x -> valok y -> valok (f k x y)) /\ Proper kok valok a /\ Proper kok valok b
  | MWhere p a => (forall k k' x, kok k -> kok k' -> veq k k' = true -> p k x = p k' x) /\ Proper kok valok a
  | MMap f a => (forall k k' x, kok k -> kok k' -> veq k k' = true -> f k x = f k' x) /\ (forall k x, kok k -> valok x -> valok (f k x)) /\
      Proper kok valok a
  | MProject ks a => (forall k, In k ks -> kok k) /\ Proper kok valok a
  | MWith k v a => kok k /\ valok v /\ Proper kok valok a
  | MWithout k a => kok k /\ Proper kok valok a
  end.

(** Running ends in a map or a panic (which only Update and Merge cause, C19); the map is reachable, and has for each key what the
    expression means. *)
Lemma c75_meaning rho F e : (forall i, MapReach kok valok (rho i)) -> (forall i, MapAnswers kok (rho i) (F i)) -> Proper kok valok e ->
  mrun rho e = Panic \/
  exists r, mrun rho e = Ok r /\ MapReach kok valok r /\ MapAnswers kok r (fun w => mden (fun i => F i w) w e).
Proof.
  intros Hr HF. induction e as [i| |a IHa b IHb|f a IHa b IHb|p a IHa|f a IHa|ks a IHa|k v a IHa|k a IHa]; intros HP; cbn [mrun mden]; cbn [Proper] in HP.
  - right. exists (rho i). split; [|split]; auto.
  - right. exists m_empty. split; [|split]; auto; [constructor|]. apply answers_mget; [apply (mreach_ok (valok := valok)); constructor|]. reflexivity.
  - destruct HP as [Pa Pb]. destruct (IHa Pa) as [->|(m & -> & Hm & Am)]; [left; auto|]. cbn [bind]. destruct (IHb Pb) as [->|(n & -> & Hn & An)]; [left; auto|]. cbn [bind].
    destruct (m_update_ok (kok := kok) m n) as [[_ E1]|(_ & r & E1 & _)]; try (eapply mreach_ok; eauto); [left; auto|]. right. exists r. split; auto.
    split; [apply (mr_update _ _ _ _ _ _ m n); auto|]. apply (c23_update m n _ _ r Hm Hn E1 Am An).
  - destruct HP as (P1 & P2 & Pa & Pb). destruct (IHa Pa) as [->|(m & -> & Hm & Am)]; [left; auto|]. cbn [bind]. destruct (IHb Pb) as [->|(n & -> & Hn & An)]; [left; auto|]. cbn [bind].
    destruct (m_merge_ok (kok := kok) m n f) as [[_ E1]|(_ & r & E1 & _)]; try (eapply mreach_ok; eauto); [left; auto|]. right. exists r. split; auto.
    split; [apply (mr_merge _ _ _ _ _ _ m n f); auto|]. apply (c22_merge_answers m n _ _ f r Hm Hn E1 Am An P1).
  - destruct HP as [P1 Pa]. destruct (IHa Pa) as [->|(m & -> & Hm & Am)]; [left; auto|]. cbn [bind]. right. pose proof (mreach_ok m Hm) as Hk.
    destruct (m_where_ok (kok := kok) m p Hk) as (r & E1 & Hr' & HR). exists r. split; auto. split; [apply (mr_where _ _ _ _ _ _ m p); auto|].
    apply answers_mget; auto. intros w Hw. rewrite (answers_get m _ w Am Hk Hw). unfold mget. rewrite HR by auto.
    destruct (klk (mel m) w) as [x|] eqn:Ex; auto. apply klk_Some in Ex as [He Hq]. cbn [option_map].
    rewrite (P1 (e_key x) w) by (auto; apply (mok_allok m Hk x He)). destruct (p w (e_val x)); auto.
  - destruct HP as (P1 & P2 & Pa). destruct (IHa Pa) as [->|(m & -> & Hm & Am)]; [left; auto|]. cbn [bind]. right. pose proof (mreach_ok m Hm) as Hk.
    destruct (m_map_ok (kok := kok) m f Hk) as (r & E1 & Hr' & HR). exists r. split; auto. split; [apply (mr_map _ _ _ _ _ _ kok valok valok m f); auto|].
    apply answers_mget; auto. intros w Hw. rewrite (answers_get m _ w Am Hk Hw). unfold mget. rewrite HR by auto.
    destruct (klk (mel m) w) as [x|] eqn:Ex; auto. apply klk_Some in Ex as [He Hq]. cbn [option_map e_val]. f_equal.
    apply P1; auto. apply (mok_allok m Hk x He).
  - destruct HP as [P1 Pa]. destruct (IHa Pa) as [->|(m & -> & Hm & Am)]; [left; auto|]. cbn [bind]. right.
    destruct (c25_project m _ ks Hm Am P1) as (r & E1 & Ar). exists r. split; auto. split; [apply (mr_project _ _ _ _ _ _ m ks); auto|]. exact Ar.
  - destruct HP as (P1 & P2 & Pa). destruct (IHa Pa) as [->|(m & -> & Hm & Am)]; [left; auto|]. cbn [bind]. right.
    destruct (c21_with m _ k v Hm Am P1) as (r & E1 & Ar & _). exists r. split; auto. split; [apply (mr_with _ _ _ _ _ _ m k v); auto|]. exact Ar.
  - destruct HP as [P1 Pa]. destruct (IHa Pa) as [->|(m & -> & Hm & Am)]; [left; auto|]. cbn [bind]. right.
    destruct (c21_without m _ k Hm Am P1) as (r & E1 & Ar & _). exists r. split; auto. split; [apply (mr_without _ _ _ _ _ _ m k); auto|]. exact Ar.
Qed.

(** An identity that holds for one key, whatever the maps have for it, is a law of maps. *)
Lemma c75_laws rho e1 e2 r1 r2 : (forall F w, kok w -> mden F w e1 = mden F w e2) -> (forall i, MapReach kok valok (rho i)) ->
  Proper kok valok e1 -> Proper kok valok e2 -> mrun rho e1 = Ok r1 -> mrun rho e2 = Ok r2 -> m_equal r1 r2 = Ok true.
Proof.
  intros H Hr P1 P2 E1 E2.
  assert (HF : forall i, MapAnswers kok (rho i) (mget (rho i))).
  { intros i. apply answers_mget; auto. apply (mreach_ok (rho i) (Hr i)). }
  destruct (c75_meaning rho (fun i => mget (rho i)) e1 Hr HF P1) as [H1|(a & Ea & Ha & Aa)]; [congruence|].
  destruct (c75_meaning rho (fun i => mget (rho i)) e2 Hr HF P2) as [H2|(b & Eb & Hb & Ab)]; [congruence|].
  assert (a = r1) as -> by congruence. assert (b = r2) as -> by congruence. apply (equal_same_answers r1 r2 _ _ Ha Hb Aa Ab).
  intros w Hw. apply H. exact Hw.
Qed.

(** The map with one entry, and the empty map. *)
Definition single_map (w : X) (o : option V) : gomap X V :=
  match o with Some v => match m_with m_empty w v with Ok m => m | _ => m_empty end | None => m_empty end.

(** And only then: if the meanings differ for one key and some values for it, there are maps, with at most one entry each, for which the
    results are not equal. *)
Lemma c75_only e1 e2 F w r1 r2 : kok w -> (forall i v, F i = Some v -> valok v) -> Proper kok valok e1 -> Proper kok valok e2 ->
  match mden F w e1, mden F w e2 with Some x, Some y => veq x y = false | None, None => False | _, _ => True end ->
  mrun (fun i => single_map w (F i)) e1 = Ok r1 -> mrun (fun i => single_map w (F i)) e2 = Ok r2 -> m_equal r1 r2 = Ok false.
Proof.
  intros Hw Hv P1 P2 Hd E1 E2. set (rho := fun i => single_map w (F i)) in *.
  pose proof (mr_empty X V KX kok valok) as He.
  assert (HeA : MapAnswers kok (@m_empty X V) (fun _ => None)).
  { apply answers_mget; [apply (mreach_ok m_empty He)|]. reflexivity. }
  assert (Hr : forall i, MapReach kok valok (rho i)).
  { intros i. unfold rho, single_map. destruct (F i) as [v|] eqn:Ev; auto. destruct (m_with m_empty w v) as [m| |] eqn:Em; auto.
    apply (mr_with _ _ _ _ _ _ m_empty w v); auto. eapply Hv; eauto. }
  assert (HG : forall i, MapAnswers kok (rho i) (mget (rho i))).
  { intros i. apply answers_mget; auto. apply (mreach_ok (rho i) (Hr i)). }
  assert (Hw' : forall i, mget (rho i) w = F i).
  { intros i. unfold rho, single_map. destruct (F i) as [v|]; [|reflexivity].
    destruct (c21_with m_empty (fun _ => None) w v He HeA Hw) as (m & Em & Am & _). rewrite Em.
    rewrite <- (answers_get m _ w Am) by (auto; apply (mreach_ok (valok := fun _ => True)); apply (mr_with _ _ _ _ _ _ m_empty w v); auto; constructor).
    rewrite (veq_refl (vok := kok)) by auto. reflexivity. }
  destruct (c75_meaning rho (fun i => mget (rho i)) e1 Hr HG P1) as [H1|(a & Ea & Ha & Aa)]; [congruence|].
  destruct (c75_meaning rho (fun i => mget (rho i)) e2 Hr HG P2) as [H2|(b & Eb & Hb & Ab)]; [congruence|].
  assert (a = r1) as -> by congruence. assert (b = r2) as -> by congruence.
  destruct (c26_equal r1 r2 _ _ Ha Hb Aa Ab) as (x & -> & Hx). f_equal. destruct x; auto. exfalso.
  assert (H := proj1 Hx eq_refl w Hw). cbn beta in H.
  assert (Hden : forall e, mden (fun i => mget (rho i) w) w e = mden F w e).
  { intros e. clear -Hw'. induction e; cbn [mden]; rewrite ?IHe, ?IHe1, ?IHe2; auto. }
  rewrite !Hden in H. destruct (mden F w e1), (mden F w e2); auto; congruence.
Qed.

(** Some laws. [a], [b] and [c] are any expressions. *)
Lemma c75_identities F (w : X) (a b c : mexp X V) :
  mden F w (MUpdate (MUpdate a b) c) = mden F w (MUpdate a (MUpdate b c)) /\
  mden F w (MUpdate a a) = mden F w a /\
  mden F w (MUpdate MEmpty a) = mden F w a /\ mden F w (MUpdate a MEmpty) = mden F w a /\
  (forall k v, mden F w (MWith k v a) = mden F w (MUpdate a (MWith k v MEmpty))) /\
  (forall k v, mden F w (MWithout k (MWith k v a)) = mden F w (MWithout k a)) /\
  (forall k v u, mden F w (MWith k v (MWith k u a)) = mden F w (MWith k v a)) /\
  (forall k, mden F w (MWithout k (MWithout k a)) = mden F w (MWithout k a)) /\
  (forall ks, mden F w (MProject ks (MUpdate a b)) = mden F w (MUpdate (MProject ks a) (MProject ks b))) /\
  (forall f ks, mden F w (MProject ks (MMerge f a b)) = mden F w (MMerge f (MProject ks a) (MProject ks b))) /\
  (forall ks ls, mden F w (MProject ks (MProject ls a)) = mden F w (MProject ls (MProject ks a))) /\
  (forall p, mden F w (MUpdate (MWhere p a) (MWhere (fun k v => negb (p k v)) a)) = mden F w a) /\
  (forall p q, mden F w (MWhere p (MWhere q a)) = mden F w (MWhere (fun k v => q k v && p k v) a)) /\
  (forall f, mden F w (MMap f (MUpdate a b)) = mden F w (MUpdate (MMap f a) (MMap f b))) /\
  (forall f g, mden F w (MMap f (MMap g a)) = mden F w (MMap (fun k v => f k (g k v)) a)) /\
  mden F w (MMap (fun _ v => v) a) = mden F w a /\
  mden F w (MMerge (fun _ x _ => x) a b) = mden F w (MUpdate b a) /\
  mden F w (MMerge (fun _ _ y => y) a b) = mden F w (MUpdate a b) /\
  (forall f, mden F w (MMerge f a b) = mden F w (MMerge (fun k x y => f k y x) b a)).
Proof.
  repeat split; intros; cbn [mden]; destruct (mden F w a) as [x|], (mden F w b) as [y|], (mden F w c) as [z|]; cbn [option_map]; auto;
    unfold andb, negb;
    repeat match goal with
           | |- context [if ?q then _ else _] => lazymatch q with context [if _ then _ else _] => fail | _ => destruct q; cbn [option_map] end
           end; auto.
Qed.

(** With and Without for different keys, in either order. *)
Lemma c75_apart F (w k j : X) v u (a : mexp X V) : kok w -> kok k -> kok j -> veq k j = false ->
  mden F w (MWith k v (MWith j u a)) = mden F w (MWith j u (MWith k v a)) /\
  mden F w (MWithout k (MWith j u a)) = mden F w (MWith j u (MWithout k a)) /\
  mden F w (MWithout k (MWithout j a)) = mden F w (MWithout j (MWithout k a)).
Proof.
  intros Hw Hk Hj Hn. cbn [mden]. destruct (veq k w) eqn:E1, (veq j w) eqn:E2; auto.
  exfalso. assert (veq k j = true); [|congruence]. apply (veq_trans (vok := kok) k w j); auto. apply (veq_sym (vok := kok)); auto.
Qed.

End MapLaws.
