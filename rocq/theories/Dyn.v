(** * Dyn: [value.Equal] and [hash.Any] on values of mixed types, nested to any depth. *)
From Verif Require Import Base Bits Env EnvFacts Node NodeWf Iter Tree TreeFacts SetApi SetFacts MapApi MapFacts GroupFacts RelVal.

(** Go types: [GBasic k] are the comparable types without Equal or Same methods (int, string, ...), [GSlice k] the types
    without [==] (slices, functions, Go maps), [GAny] is the interface type [any]. Simplification: other interface types,
    pointers, structs and user types with their own Equal or Same are left out. *)
Inductive gty :=
| GBasic (k : nat)
| GSlice (k : nat)
| GAny
| GSet (t : gty)         (* set.go:26-28 [Set[T]] *)
| GMap (k v : gty)       (* map.go:15-17 [Map[K, V]] *)
| GKV (k v : gty).       (* kv.go:13-16 [KeyValue[K, V]] *)

(** Identity of Go types, as decided by the type assertions in set.go:180, map.go:236 and kv.go:45. *)
Fixpoint gty_eqb (a b : gty) : bool :=
  match a, b with
  | GBasic k, GBasic l | GSlice k, GSlice l => Nat.eqb k l
  | GAny, GAny => true
  | GSet t, GSet u => gty_eqb t u
  | GMap k v, GMap l w | GKV k v, GKV l w => gty_eqb k l && gty_eqb v w
  | _, _ => false
  end%bool.

(** Values together with their dynamic type, as an [any] holds them: the [z]-th value of a basic type, some value of an uncomparable
    type, and the containers of package frozen with the types of what they hold. *)
Inductive dyn :=
| DBasic (k : nat) (z : Z)
| DSlice (k : nat)
| DSet (t : gty) (s : set dyn)
| DMap (k v : gty) (m : gomap dyn dyn)
| DKV (k v : gty) (e : keyValue dyn dyn).

(** The zero value is only used as the result of failed lookups (map.go:90-95 [Get]). *)
#[global] Instance Zdyn : Zero dyn := {| zero := DBasic 0 0 |}.

(** The value has the static type: the type is its dynamic type, or [any]. *)
Definition typed (T : gty) (v : dyn) : Prop :=
  T = GAny \/ T = match v with
                  | DBasic k _ => GBasic k | DSlice k => GSlice k | DSet t _ => GSet t | DMap k v _ => GMap k v | DKV k v _ => GKV k v
                  end.

(** value.go:36 and 25: [==] on two interface values, of which the first is not a container: values of different types differ, and
    comparing two values of one uncomparable type panics. *)
Definition goEq (a b : dyn) : res bool :=
  match a, b with
  | DBasic k x, DBasic l y => Ok (Nat.eqb k l && Z.eqb x y)
  | DSlice k, DSlice l => if Nat.eqb k l then Panic else Ok false
  | _, _ => Ok false
  end.

(** An answer as a boolean, where a panic does not happen. *)
Definition yes (r : res bool) : bool := match r with Ok x => x | _ => false end.

Section Dyn.
Context {E : Env} {HE : EnvOk E} (bh : nat -> Z -> N -> N).
Local Opaque maxTreeDepth fanout fb.

(** [hash.Any(a, seed)], with [bh] for the basic types; it calls [Hash] on values that have it (generic.go:14-16, set.go:163-170,
    map.go:214-222, kv.go:24-26). [hash.Any] is in the module github.com/arr-ai/hash. The recursion is bounded by [n]. *)
Fixpoint dhash (n : nat) (a : dyn) (seed : N) : N :=
  match n with
  | O => 0%N
  | S n =>
      let K := {| veq := fun _ _ => false; vhash := dhash n |} in
      match a with
      | DBasic k z => wrap 64 (bh k z seed)
      | DSlice k => 0%N
      | DSet _ s => @vhash _ (setKey (K := K)) s seed
      | DMap _ _ m => @vhash _ (mapKey (KX := K) (KV := K)) m seed
      | DKV _ _ e => @vhash _ (kvKey (KX := K) (KV := K)) e seed
      end
  end.

(** value.go:28-37 [Equal[T]]. For a static type [Set[t]], [Map[k, v]] or [KeyValue[k, v]] the first case of the switch applies
    (set.go:173-176, map.go:225-232, kv.go:40-42); for [any] the second (set.go:179-182, map.go:235-238, kv.go:44-47), unless the
    value has no Same method. The elements of a container are compared by [Equal] at their static type. The recursion is bounded by
    [n]. Simplification: a panic in the comparison of two elements is taken as the answer false; [sound] below excludes it. *)
Fixpoint dequal (n : nat) (T : gty) (a b : dyn) : res bool :=
  match n with
  | O => Fuel
  | S n =>
      let K t := {| veq := fun x y => yes (dequal n t x y); vhash := dhash n |} in
      match T with
      | GSet t => match a, b with DSet _ s, DSet _ s2 => s_equal (K := K t) s s2 | _, _ => Panic end
      | GMap k v => match a, b with DMap _ _ m, DMap _ _ m2 => m_equal (KX := K k) (KV := K v) m m2 | _, _ => Panic end
      | GKV k v => match a, b with DKV _ _ e, DKV _ _ e2 => Ok (@veq _ (kvKey (KX := K k) (KV := K v)) e e2) | _, _ => Panic end
      | GAny =>
          match a with
          | DSet t s => s_same (K := K t) s (match b with DSet t2 s2 => if gty_eqb t t2 then Some s2 else None | _ => None end)
          | DMap k v m =>
              m_same (KX := K k) (KV := K v) m
                (match b with DMap k2 v2 m2 => if (gty_eqb k k2 && gty_eqb v v2)%bool then Some m2 else None | _ => None end)
          | DKV k v e =>
              Ok (kv_same (KX := K k) (KV := K v) e
                (match b with DKV k2 v2 e2 => if (gty_eqb k k2 && gty_eqb v v2)%bool then Some e2 else None | _ => None end))
          | _ => goEq a b
          end
      | _ => goEq a b
      end
  end.

(** value.go:40-59 [EqualFuncFor[T]]: the zero value of [T] is a container for the types of package frozen, nil for [any].
    Hashing the zero value of an uncomparable type panics, and [defer recover()] (line 52) does not stop it: recover
    only has an effect if it is called by a deferred function, here it is the deferred function. *)
Definition equalFuncFor (n : nat) (T : gty) : res (dyn -> dyn -> res bool) :=
  match T with
  | GSet _ | GMap _ _ | GKV _ _ => Ok (dequal n T)    (* value.go:14-17 [equalEqualer]: [Equal] of the first argument *)
  | GAny => Ok (dequal n GAny)                        (* value.go:48-49 *)
  | GBasic _ => Ok goEq                               (* value.go:24-26 [equalComparable] *)
  | GSlice _ => Panic
  end.

(** [value.Equal] and [hash.Any] at static type [T], for values nested to depth less than [n]. *)
Definition dynKey (n : nat) (T : gty) : Key dyn := {| veq := fun a b => yes (dequal n T a b); vhash := dhash n |}.

(** Values of static type [T], nested to depth less than [n], without uncomparable parts, in which every container is well formed. Sets and maps
    obtained from the API are (theorems C49_set and C49_map). *)
Fixpoint sound (n : nat) (T : gty) (v : dyn) : Prop :=
  match n with
  | O => False
  | S n =>
      typed T v /\
      match v with
      | DBasic _ _ => True
      | DSlice _ => False
      | DSet t s => sok (K := dynKey n t) (sound n t) s
      | DMap k v m => mvok (KX := dynKey n k) (sound n k) (sound n v) m
      | DKV k v e => kvok (sound n k) (sound n v) e
      end
  end.

(** ** Facts *)

Lemma gty_eqb_eq a b : gty_eqb a b = true <-> a = b.
Proof.
  revert b. induction a; intros []; cbn; try (split; congruence); try (rewrite Nat.eqb_eq; split; congruence).
  - rewrite IHa. split; congruence.
  - rewrite andb_true_iff, IHa1, IHa2. split; [intros []; congruence|intros [= -> ->]; auto].
  - rewrite andb_true_iff, IHa1, IHa2. split; [intros []; congruence|intros [= -> ->]; auto].
Qed.

Lemma gty_eqb_refl a : gty_eqb a a = true.
Proof. apply gty_eqb_eq. auto. Qed.

(** The answer of [dequal] on sound values, at every static type. *)
Definition dq (n : nat) (a b : dyn) : bool :=
  match a, b with
  | DBasic k x, DBasic l y => Nat.eqb k l && Z.eqb x y
  | DSet t s, DSet t2 s2 => gty_eqb t t2 && @veq _ (setKey (K := dynKey n t)) s s2
  | DMap k v m, DMap k2 v2 m2 => (gty_eqb k k2 && gty_eqb v v2) && @veq _ (mapKey (KX := dynKey n k) (KV := dynKey n v)) m m2
  | DKV k v e, DKV k2 v2 e2 => (gty_eqb k k2 && gty_eqb v v2) && @veq _ (kvKey (KX := dynKey n k) (KV := dynKey n v)) e e2
  | _, _ => false
  end%bool.

Lemma yes_ok (r : res bool) : (exists x, r = Ok x) -> r = Ok (yes r).
Proof. intros (x & ->). auto. Qed.

Section Level.
Context (n : nat) (IH : forall t, KeyOk (dynKey n t) (sound n t)).

Lemma set_equal t s s2 : sok (K := dynKey n t) (sound n t) s -> sok (K := dynKey n t) (sound n t) s2 ->
  s_equal (K := dynKey n t) s s2 = Ok (@veq _ (setKey (K := dynKey n t)) s s2).
Proof.
  intros H1 H2. destruct (s_equal_ok (K := dynKey n t) (KO := IH t) s s2 H1 H2) as (x & Hx & _). cbn. rewrite Hx. auto.
Qed.

Lemma map_equal k v m m2 : mvok (KX := dynKey n k) (sound n k) (sound n v) m -> mvok (KX := dynKey n k) (sound n k) (sound n v) m2 ->
  m_equal (KX := dynKey n k) (KV := dynKey n v) m m2 = Ok (@veq _ (mapKey (KX := dynKey n k) (KV := dynKey n v)) m m2).
Proof.
  intros [H1 _] [H2 _]. destruct (m_equal_ok (KX := dynKey n k) (KO := IH k) (KV := dynKey n v) m m2 H1 H2) as (x & Hx & _). cbn. rewrite Hx. auto.
Qed.

Lemma dequal_dq T a b : sound (S n) T a -> sound (S n) T b -> dequal (S n) T a b = Ok (dq n a b).
Proof.
  intros [Ta Ha] [Tb Hb]. cbn [dequal].
  change (fun t => {| veq := fun x y => yes (dequal n t x y); vhash := dhash n |}) with (dynKey n). cbv zeta.
  destruct Ta as [->| ->].
  - destruct a as [k x|k|t s|k v m|k v e]; [| contradiction | | |]; destruct b as [k2 x2|k2|t2 s2|k2 v2 m2|k2 v2 e2]; cbn [goEq s_same m_same kv_same dq]; auto.
    + destruct (gty_eqb t t2) eqn:Et; auto. apply gty_eqb_eq in Et as <-. apply set_equal; auto.
    + destruct (gty_eqb k k2) eqn:Ek; auto. destruct (gty_eqb v v2) eqn:Ev; auto. apply gty_eqb_eq in Ek as <-. apply gty_eqb_eq in Ev as <-.
      apply map_equal; auto.
    + destruct (gty_eqb k k2) eqn:Ek; auto. destruct (gty_eqb v v2) eqn:Ev; auto.
  - destruct Tb as [Tb|Tb]; [destruct a; discriminate|].
    destruct a as [k x|k|t s|k v m|k v e]; [| contradiction | | |]; destruct b as [k2 x2|k2|t2 s2|k2 v2 m2|k2 v2 e2]; try discriminate; cbn [dq goEq].
    + auto.
    + injection Tb as <-. rewrite gty_eqb_refl. apply set_equal; auto.
    + injection Tb as <- <-. rewrite !gty_eqb_refl. apply map_equal; auto.
    + injection Tb as <- <-. rewrite !gty_eqb_refl. auto.
Qed.

Lemma dhash_lt a seed : (exists T, sound (S n) T a) -> (dhash (S n) a seed < 2 ^ 64)%N.
Proof.
  intros (T & _ & Ha). destruct a as [k x|k|t s|k v m|k v e]; cbn [dhash].
  - apply wrap_lt.
  - reflexivity.
  - exact (vhash_range (KeyOk := setKeyOk (KO := IH t)) s seed Ha).
  - exact (vhash_range (KeyOk := mapKeyOk (KO := IH k) (KVO := IH v)) m seed Ha).
  - exact (vhash_range (KeyOk := kvKeyOk (KO := IH k) (KVO := IH v)) e seed Ha).
Qed.

Lemma level_ok T : KeyOk (dynKey (S n) T) (sound (S n) T).
Proof.
  constructor; cbn [veq vhash dynKey].
  - intros a Ha. rewrite (dequal_dq T a a Ha Ha). cbn [yes]. destruct Ha as [_ Ha].
    destruct a as [k x|k|t s|k v m|k v e]; cbn [dq]; rewrite ?gty_eqb_refl; cbn [andb].
    + rewrite Nat.eqb_refl, Z.eqb_refl. auto.
    + contradiction.
    + exact (veq_refl (KeyOk := setKeyOk (KO := IH t)) s Ha).
    + exact (veq_refl (KeyOk := mapKeyOk (KO := IH k) (KVO := IH v)) m Ha).
    + exact (veq_refl (KeyOk := kvKeyOk (KO := IH k) (KVO := IH v)) e Ha).
  - intros a b Ha Hb. rewrite (dequal_dq T a b Ha Hb), (dequal_dq T b a Hb Ha). cbn [yes]. destruct Ha as [_ Ha], Hb as [_ Hb].
    destruct a as [k x|k|t s|k v m|k v e], b as [k2 x2|k2|t2 s2|k2 v2 m2|k2 v2 e2]; cbn [dq]; try discriminate; rewrite ?andb_true_iff, ?gty_eqb_eq.
    + rewrite Nat.eqb_eq, Z.eqb_eq. intros [-> ->]. rewrite Nat.eqb_refl, Z.eqb_refl. auto.
    + intros [<- H]. split; auto. exact (veq_sym (KeyOk := setKeyOk (KO := IH t)) s s2 Ha Hb H).
    + intros [[<- <-] H]. split; auto. exact (veq_sym (KeyOk := mapKeyOk (KO := IH k) (KVO := IH v)) m m2 Ha Hb H).
    + intros [[<- <-] H]. split; auto. exact (veq_sym (KeyOk := kvKeyOk (KO := IH k) (KVO := IH v)) e e2 Ha Hb H).
  - intros a b c Ha Hb Hc. rewrite (dequal_dq T a b Ha Hb), (dequal_dq T b c Hb Hc), (dequal_dq T a c Ha Hc). cbn [yes].
    destruct Ha as [_ Ha], Hb as [_ Hb], Hc as [_ Hc].
    destruct a as [k x|k|t s|k v m|k v e], b as [k2 x2|k2|t2 s2|k2 v2 m2|k2 v2 e2]; cbn [dq]; try discriminate;
      destruct c as [k3 x3|k3|t3 s3|k3 v3 m3|k3 v3 e3]; cbn [dq]; try discriminate; rewrite ?andb_true_iff, ?gty_eqb_eq.
    + rewrite !Nat.eqb_eq, !Z.eqb_eq. intros [-> ->]. auto.
    + intros [<- H] [<- H']. split; auto. exact (veq_trans (KeyOk := setKeyOk (KO := IH t)) s s2 s3 Ha Hb Hc H H').
    + intros [[<- <-] H] [[<- <-] H']. split; auto. exact (veq_trans (KeyOk := mapKeyOk (KO := IH k) (KVO := IH v)) m m2 m3 Ha Hb Hc H H').
    + intros [[<- <-] H] [[<- <-] H']. split; auto. exact (veq_trans (KeyOk := kvKeyOk (KO := IH k) (KVO := IH v)) e e2 e3 Ha Hb Hc H H').
  - intros a b seed Ha Hb. rewrite (dequal_dq T a b Ha Hb). cbn [yes]. destruct Ha as [_ Ha], Hb as [_ Hb].
    destruct a as [k x|k|t s|k v m|k v e], b as [k2 x2|k2|t2 s2|k2 v2 m2|k2 v2 e2]; cbn [dq]; try discriminate; rewrite ?andb_true_iff, ?gty_eqb_eq; cbn [dhash].
    + rewrite Nat.eqb_eq, Z.eqb_eq. intros [-> ->]. auto.
    + intros [<- H]. exact (vhash_compat (KeyOk := setKeyOk (KO := IH t)) s s2 seed Ha Hb H).
    + intros [[<- <-] H]. exact (vhash_compat (KeyOk := mapKeyOk (KO := IH k) (KVO := IH v)) m m2 seed Ha Hb H).
    + intros [[<- <-] H]. exact (vhash_compat (KeyOk := kvKeyOk (KO := IH k) (KVO := IH v)) e e2 seed Ha Hb H).
  - intros a seed Ha. apply dhash_lt. eauto.
Qed.
End Level.

Lemma dynKeyOk n : forall T, KeyOk (dynKey n T) (sound n T).
Proof.
  induction n as [|n IH]; intros T; [constructor; cbn; tauto|]. apply level_ok; auto.
Qed.

Lemma dequal_ok n T a b : sound n T a -> sound n T b -> exists x, dequal n T a b = Ok x.
Proof. destruct n as [|n]; [intros []|]. intros Ha Hb. eexists. apply dequal_dq; auto. apply dynKeyOk. Qed.

(** The static type makes no difference. *)
Lemma dequal_any n T a b : sound n T a -> sound n T b -> dequal n T a b = dequal n GAny a b.
Proof.
  destruct n as [|n]; [intros []|]. intros Ha Hb. rewrite (dequal_dq n (dynKeyOk n) T), (dequal_dq n (dynKeyOk n) GAny); auto.
  - split; [left; auto|apply Ha].
  - split; [left; auto|apply Hb].
Qed.

(** ** The bound on the depth makes no difference *)

Lemma par_loop_ext {S} (f g : nat -> S -> res (bool * Z * S)) order : forall acc s, (forall i s, f i s = g i s) -> par_loop f order acc s = par_loop g order acc s.
Proof.
  induction order as [|i l IHl]; intros acc s H; cbn [par_loop]; auto. rewrite H. destruct (g i s) as [[[[] m] s']| |]; cbn [bind]; auto.
Qed.

Lemma equal_ext {T} (eq eq' : T -> T -> bool) fuel : forall g n n2 d, (forall a b, In a (elems n) -> In b (elems n2) -> eq a b = eq' a b) ->
  equal fuel g eq n n2 d = equal fuel g eq' n n2 d.
Proof.
  induction fuel as [|fuel IHf]; intros g n n2 d H; cbn [equal]; auto.
  destruct n as [a|a b|l|m1 d1], n2 as [c|c e|l2|m2 d2]; auto.
  - rewrite H; cbn; auto.
  - rewrite !H; cbn; auto.
  - destruct (length l =? length l2); auto. f_equal. unfold allIn. cbn [elems] in H.
    revert H. induction l as [|x l IHl]; intros H; cbn; auto. f_equal.
    + assert (Hx : forall y, In y l2 -> eq x y = eq' x y) by (intros y Hy; apply H; auto; left; auto).
      clear - Hx. induction l2 as [|y l2 IH2]; cbn; auto. rewrite Hx by (left; auto). f_equal. apply IH2. intros z Hz. apply Hx. right; auto.
    + apply IHl. intros y z Hy Hz. apply H; auto. right; auto.
  - destruct (m1 =? m2)%N; auto. unfold parallel.
    rewrite (par_loop_ext _ (fun i (u : unit) => match child d1 i, child d2 i with
       | Some x, Some y => b <- equal fuel (g_sub i g) eq' x y (S d) ;; Ok (b, 0%Z, u) | _, _ => Panic end)); auto.
    intros i u. destruct (child d1 i) as [x|] eqn:E1, (child d2 i) as [y|] eqn:E2; auto. rewrite (IHf _ x y); auto.
    intros a b Ha Hb. apply H; rewrite elems_branch; apply in_flat_map_child; exists i; [rewrite E1|rewrite E2]; auto.
Qed.

Lemma t_equal_ext {T} (eq eq' : T -> T -> bool) g (t u : tree T) : (forall a b, In a (tel t) -> In b (tel u) -> eq a b = eq' a b) ->
  t_equal g eq t u = t_equal g eq' t u.
Proof.
  unfold t_equal, tel. intros H. destruct (t_root t) as [n|], (t_root u) as [n2|]; auto. rewrite (equal_ext eq eq'); auto.
Qed.

Lemma set_hash_ext (s : set dyn) (K1 K2 : Key dyn) seed : s_elements s = Ok (sel s) ->
  (forall a, In a (sel s) -> @vhash _ K1 a seed = @vhash _ K2 a seed) -> @vhash _ (setKey (K := K1)) s seed = @vhash _ (setKey (K := K2)) s seed.
Proof.
  intros He H. cbn. unfold s_hash. rewrite He. cbn [bind]. generalize (wrap 64 (env_uintptr 10538386443025343807%N seed)).
  clear He. induction (sel s) as [|x l IHl]; intros acc; cbn; auto. rewrite H by (left; auto). apply IHl. intros a Ha. apply H. right; auto.
Qed.

Lemma map_hash_ext (m : gomap dyn dyn) (K1 K2 V1 V2 : Key dyn) seed : m_entries m = Ok (map pair_of (mel m)) ->
  (forall e seed, In e (mel m) -> @vhash _ K1 (e_key e) seed = @vhash _ K2 (e_key e) seed) ->
  (forall e seed, In e (mel m) -> @vhash _ V1 (e_val e) seed = @vhash _ V2 (e_val e) seed) ->
  @vhash _ (mapKey (KX := K1) (KV := V1)) m seed = @vhash _ (mapKey (KX := K2) (KV := V2)) m seed.
Proof.
  intros He H H'. cbn. unfold m_hash. rewrite He. cbn [bind]. generalize (wrap 64 (env_uintptr 3167960924819262823%N seed)).
  clear He. induction (mel m) as [|x l IHl]; intros acc; cbn; auto. rewrite H, H' by (left; auto). apply IHl.
  - intros a sd Ha. apply H. right; auto.
  - intros a sd Ha. apply H'. right; auto.
Qed.

Lemma mok_change (m : gomap dyn dyn) (K1 K2 : Key dyn) (ok1 ok2 : dyn -> Prop) : mok (KX := K1) ok1 m ->
  (forall e, In e (mel m) -> ok2 (e_key e)) ->
  (forall e e', In e (mel m) -> In e' (mel m) -> @veq _ K1 (e_key e) (e_key e') = @veq _ K2 (e_key e) (e_key e')) ->
  (forall e seed, In e (mel m) -> @vhash _ K1 (e_key e) seed = @vhash _ K2 (e_key e) seed) -> mok (KX := K2) ok2 m.
Proof.
  intros H HO HQ HH.
  apply (sok_change (entryKey (KX := K1)) (entryKey (KX := K2)) (eok (kok := ok1)) (eok (kok := ok2)) (mkSet (m_tree m)) H); auto.
Qed.

Lemma levels n : forall m, n <= m ->
  (forall T v, sound n T v -> sound m T v) /\
  (forall T v seed, sound n T v -> dhash n v seed = dhash m v seed) /\
  (forall T a b, sound n T a -> sound n T b -> dequal n T a b = dequal m T a b).
Proof.
  induction n as [|n IH]; intros m Hm; [repeat split; intros; contradiction|].
  destruct m as [|m]; [lia|]. destruct (IH m) as (I1 & I2 & I3); [lia|]. clear IH.
  assert (J3 : forall t a b, sound n t a -> sound n t b -> @veq _ (dynKey n t) a b = @veq _ (dynKey m t) a b).
  { intros t a b Ha Hb. cbn. rewrite (I3 t); auto. }
  assert (J2 : forall t u a seed, sound n t a -> @vhash _ (dynKey n u) a seed = @vhash _ (dynKey m u) a seed).
  { intros t u a seed Ha. cbn. apply (I2 t); auto. }
  assert (MS : forall k v mp, mvok (KX := dynKey n k) (sound n k) (sound n v) mp ->
    (forall e, In e (mel mp) -> sound n k (e_key e)) /\ (forall e, In e (mel mp) -> sound n v (e_val e)) /\
    m_entries mp = Ok (map pair_of (mel mp))).
  { intros k v mp [H1 H2]. split; [|split; auto].
    - exact (mok_allok (KX := dynKey n k) (kok := sound n k) mp H1).
    - exact (m_entries_ok (KX := dynKey n k) (kok := sound n k) mp H1). }
  assert (SS : forall t s, sok (K := dynKey n t) (sound n t) s -> (forall e, In e (sel s) -> sound n t e) /\ s_elements s = Ok (sel s)).
  { intros t s H. split; [exact (sok_allok (K := dynKey n t) (vok := sound n t) s H)|].
    exact (s_elements_ok (K := dynKey n t) (vok := sound n t) s H). }
  assert (Q1 : forall T v, sound (S n) T v -> sound (S m) T v).
  { intros T a [HT H]. split; auto. destruct a as [k x|k|t s|k v mp|k v e]; auto.
    - destruct (SS t s H) as [Hs _]. apply (sok_change (dynKey n t) (dynKey m t) (sound n t)); eauto.
    - destruct (MS k v mp H) as (Hk & Hv & _). destruct H as [H1 H2]. split.
      + apply (mok_change mp (dynKey n k) (dynKey m k) (sound n k)); eauto.
      + intros e He. apply I1. auto.
    - destruct H as [H1 H2]. split; auto. }
  split; [exact Q1|]. split.
  - intros T a seed [HT H]. destruct a as [k x|k|t s|k v mp|k v e]; cbn [dhash]; auto.
    + destruct (SS t s H) as [Hs He]. apply set_hash_ext; auto. intros x Hx. cbn [vhash]. apply (I2 t). auto.
    + destruct (MS k v mp H) as (Hk & Hv & He). apply map_hash_ext; auto; intros e sd Hin; cbn [vhash]; eauto.
    + cbn. apply (I2 k). apply H.
  - intros T a b Ha Hb. pose proof (Q1 T a Ha) as Ha'. pose proof (Q1 T b Hb) as Hb'.
    rewrite (dequal_dq n (dynKeyOk n) T a b Ha Hb), (dequal_dq m (dynKeyOk m) T a b Ha' Hb'). f_equal. clear Ha' Hb'. destruct Ha as [_ Ha], Hb as [_ Hb].
    destruct a as [k x|k|t s|k v mp|k v e], b as [k2 x2|k2|t2 s2|k2 v2 m2|k2 v2 e2]; cbn [dq]; auto.
    + destruct (gty_eqb t t2) eqn:Et; cbn [andb]; auto. apply gty_eqb_eq in Et as <-.
      destruct (SS t s Ha) as [Hs _], (SS t s2 Hb) as [Hs2 _]. cbn. unfold s_equal.
      rewrite (t_equal_ext (@veq _ (dynKey n t)) (@veq _ (dynKey m t))); auto.
    + destruct (gty_eqb k k2) eqn:Ek; cbn [andb]; auto. destruct (gty_eqb v v2) eqn:Ev; cbn [andb]; auto.
      apply gty_eqb_eq in Ek as <-. apply gty_eqb_eq in Ev as <-.
      destruct (MS k v mp Ha) as (Hk & Hv & _), (MS k v m2 Hb) as (Hk2 & Hv2 & _). cbn. unfold m_equal.
      rewrite (t_equal_ext (mapEntryEqual (KX := dynKey n k) (KV := dynKey n v)) (mapEntryEqual (KX := dynKey m k) (KV := dynKey m v))); auto.
      intros e e' He He'. unfold mapEntryEqual. rewrite (J3 k), (J3 v); auto.
    + destruct (gty_eqb k k2) eqn:Ek; cbn [andb]; auto. destruct (gty_eqb v v2) eqn:Ev; cbn [andb]; auto.
      apply gty_eqb_eq in Ek as <-. apply gty_eqb_eq in Ev as <-. destruct Ha as [H1 H2], Hb as [H3 H4].
      unfold kvKey; cbn [veq]. rewrite !(J3 k), !(J3 v); auto.
Qed.

End Dyn.
