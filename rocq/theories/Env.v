(** * Env: build tags, runtime configuration, element types, masker and hasher. *)
From Verif Require Import Base Bits.
Local Open Scope N_scope.

(** Build tags: internal/pkg/depth/fanout4.go, fanout8.go, fanout16.go.
    Note that fanout16.go:6 also says [FanoutBits = 2]. *)
Inductive build := branch4 | branch8 | branch16.
Definition fanoutBits_of (b : build) : nat :=
  match b with
  | branch4 => 2   (* fanout4.go:6 *)
  | branch8 => 3   (* fanout8.go:5 (default build) *)
  | branch16 => 2  (* fanout16.go:6 *)
  end.

(** Everything outside the program text that its behaviour may depend on:
    the build tag, [maxConcurrency] and [maxDepth] (gauge.go:19-35, read from
    FROZEN_CONCURRENCY and GOMAXPROCS), and the goroutine scheduler.
    [env_sched path order] is the order in which the goroutines started by
    [Gauge.Parallel] in the branch at trie position [path] (child indices, innermost
    first) deliver their outcome, given the order in which they were started.
    [env_uintptr v seed] is [hash.Uintptr(v, seed)] (set.go:165, map.go:216), a function of
    the external module github.com/arr-ai/hash. *)
Class Env := {
  env_build : build;
  env_maxConcurrency : Z;
  env_maxDepth : Z;
  env_sched : list nat -> list nat -> list nat;
  env_uintptr : N -> N -> N;
}.

(** The scheduler only reorders the goroutines. *)
Definition EnvOk (E : Env) : Prop := forall path l, Permutation (env_sched path l) l.
Existing Class EnvOk.

(** [value.Equal] and [hash.Any] for an element type
    (internal/pkg/value/value.go:28-37, internal/pkg/tree/generic.go:10-16).
    [vhash x seed] is [hash.Any(x, seed)]. *)
Class Key (T : Type) := {
  veq : T -> T -> bool;
  vhash : T -> N -> N;
}.

(** What a user must guarantee about an element type, on the domain [vok] of values
    put into sets: equality is an equivalence, equal values have equal hashes,
    hashes are 64-bit words. *)
Class KeyOk {T : Type} (K : Key T) (vok : T -> Prop) : Prop := {
  veq_refl : forall a, vok a -> veq a a = true;
  veq_sym : forall a b, vok a -> vok b -> veq a b = true -> veq b a = true;
  veq_trans : forall a b c, vok a -> vok b -> vok c ->
    veq a b = true -> veq b c = true -> veq a c = true;
  vhash_compat : forall a b seed, vok a -> vok b -> veq a b = true -> vhash a seed = vhash b seed;
  vhash_range : forall a seed, vok a -> vhash a seed < 2 ^ 64;
}.

(** ** internal/pkg/masker/masker.go: 16-bit masks *)

(** masker.go:12-14 [NewMasker]. *)
Definition newMasker (i : nat) : N := wshl 16 1 (N.of_nat i).
(** masker.go:17-19 [First]. *)
Definition m_first (m : N) : N := N.ldiff m (wsub 16 m 1).
(** masker.go:40-42 [SubsetOf]. *)
Definition m_subsetOf (m mask : N) : bool := N.ldiff m mask =? 0.
(** masker.go:22-24 [FirstIsIn]. *)
Definition m_firstIsIn (m n : N) : bool := m_subsetOf (m_first m) n.
(** masker.go:26-28 [FirstIndex] (bits.TrailingZeros16). *)
Definition m_firstIndex (m : N) : nat := ctz 16 m.
(** masker.go:31-33 [Next]. *)
Definition m_next (m : N) : N := strip_low 16 m.

(** The loop [for m := mask; m != 0; m = m.Next() { i := m.FirstIndex(); ... }]
    (gauge.go:58-59, branch.go:216-218, 310, 435-436): indices visited, in order.
    A 16-bit mask has at most 16 one-bits, so 16 rounds of fuel always suffice
    (proved in [mask_indices_spec]). *)
Fixpoint mask_loop (fuel : nat) (m : N) : list nat :=
  match fuel with
  | O => []
  | S k => if m =? 0 then [] else m_firstIndex m :: mask_loop k (m_next m)
  end.
Definition mask_indices (m : N) : list nat := mask_loop 16 m.

Section WithEnv.
Context {E : Env}.

(** branch.go:13, depth/fanout*.go. *)
Definition fb : nat := fanoutBits_of env_build.
(** gauge.go:15 [Fanout = 1 << FanoutBits]. *)
Definition fanout : nat := 2 ^ fb.
(** hasher.go:14: 8 * sizeof(uintptr) on a 64-bit platform. *)
Definition hashBits : nat := 64.
(** hasher.go:15. *)
Definition hashBitsOffset : nat := hashBits - fb.
(** hasher.go:16. *)
Definition maxTreeDepth : nat := 1 + (hashBits - 1) / fb.

(** hasher.go:21-23 [newHasher]. *)
Definition newHasher {T} {K : Key T} (key : T) (depth : nat) : N :=
  wshl 64 (vhash key 0) (N.of_nat (depth * fb)).
(** hasher.go:25-27 [next]. *)
Definition h_next (h : N) : N := wshl 64 h (N.of_nat fb).
(** hasher.go:29-31 [hash]. *)
Definition h_hash (h : N) : nat := N.to_nat (N.shiftr h (N.of_nat hashBitsOffset)).

(** ** internal/pkg/depth/gauge.go *)

(** A [Gauge] (the int of gauge.go:41) together with the scheduler's choices below
    the current trie position. *)
Record gauge := mkGauge {
  g_limit : Z;
  g_sched : list nat -> list nat -> list nat;
}.

(** gauge.go:38 [NonParallel]. *)
Definition NonParallel : gauge := mkGauge (-1) (fun p => env_sched p).

(** gauge.go:43-49 [NewGauge] ([/] truncates toward zero: [Z.quot]). *)
Definition newGauge (count : Z) : gauge :=
  let g := Z.quot (Z.of_N (bitlen (Z.to_N count)) - env_maxConcurrency) (Z.of_nat fb) in
  mkGauge (if (env_maxDepth <? g)%Z then env_maxDepth else g) (fun p => env_sched p).

(** The gauge seen by the recursive call on child [i]. *)
Definition g_sub (i : nat) (g : gauge) : gauge :=
  mkGauge (g_limit g) (fun p => g_sched g (i :: p)).

Definition gaugeOk (g : gauge) : Prop := forall p l, Permutation (g_sched g p l) l.

(** gauge.go:51-84 [Gauge.Parallel]. The closure [f] reads and updates the captured
    variables [S]. In parallel mode (gauge.go:53-71) the outcomes are received in the
    order the goroutines complete; in sequential mode (gauge.go:73-80) in mask order.
    Both modes stop at the first outcome that is not ok and otherwise add up the matches.
    Simplification: here a goroutine's effect on [S] is atomic; Concurrency.v refines this
    to an interleaving model in which the mask updates race. *)
Definition par_order (g : gauge) (depth : nat) (mask : N) : list nat :=
  if (Z.of_nat depth <? g_limit g)%Z
  then g_sched g [] (mask_indices mask)
  else mask_indices mask.

Fixpoint par_loop {S : Type} (f : nat -> S -> res (bool * Z * S))
    (order : list nat) (matches : Z) (s : S) : res (bool * Z * S) :=
  match order with
  | [] => Ok (true, matches, s)
  | i :: order' =>
      bind (f i s) (fun o =>
        match o with
        | (ok, m, s') =>
            if (ok : bool) then par_loop f order' (matches + m)%Z s'
            else Ok (false, matches, s')
        end)
  end.

Definition parallel {S : Type} (g : gauge) (depth : nat) (mask : N)
    (f : nat -> S -> res (bool * Z * S)) (s : S) : res (bool * Z * S) :=
  par_loop f (par_order g depth mask) 0%Z s.

End WithEnv.

Global Arguments maxTreeDepth : simpl never.
Global Arguments fanout : simpl never.
Global Arguments fb : simpl never.
Global Arguments h_hash : simpl never.
Global Arguments h_next : simpl never.
Global Arguments newHasher : simpl never.
Global Arguments newMasker : simpl never.
Global Arguments mask_indices : simpl never.
