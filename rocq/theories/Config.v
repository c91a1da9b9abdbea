(** * Config: how the environment variable FROZEN_CONCURRENCY and GOMAXPROCS set the gauge (internal/pkg/depth/gauge.go:18-49).

    Integers are 64 bits wide, as is [uintptr] in Env.v. [runtime.GOMAXPROCS(0)] is at least 1. *)
From Coq Require Import String Ascii.
From Verif Require Import Base Bits Env EnvFacts.
Local Open Scope Z_scope.

(** The arithmetic of [int] wraps around. *)
Definition int64 (z : Z) : Z := (z + 2 ^ 63) mod 2 ^ 64 - 2 ^ 63.

(** [strings.ToLower] (gauge.go:23). Simplification: ASCII letters only; no other character has [o] or [f] as its lower
    case, so that the comparison with "off" is the same. *)
Definition lower (c : ascii) : ascii :=
  let n := N_of_ascii c in if ((65 <=? n) && (n <=? 90))%N then ascii_of_N (n + 32) else c.
Fixpoint toLower (s : string) : string := match s with EmptyString => EmptyString | String c s' => String (lower c) (toLower s') end.

(** [strconv.Atoi] (gauge.go:26): an optional sign, then decimal digits, at least one; [None] for an error, also if the number
    does not fit into an [int]. *)
Definition digit (c : ascii) : option Z :=
  let n := N_of_ascii c in if ((48 <=? n) && (n <=? 57))%N then Some (Z.of_N n - 48) else None.
Fixpoint digits (acc : Z) (s : string) : option Z :=
  match s with
  | EmptyString => Some acc
  | String c s' => match digit c with Some d => digits (10 * acc + d) s' | None => None end
  end.
Definition unsigned (s : string) : option Z := match s with EmptyString => None | _ => digits 0 s end.
Definition atoi (s : string) : option Z :=
  let v := match s with
           | String "-"%char s' => match unsigned s' with Some v => Some (- v) | None => None end
           | String "+"%char s' => unsigned s'
           | _ => unsigned s
           end in
  match v with
  | Some z => if (- 2 ^ 63 <=? z) && (z <? 2 ^ 63) then Some z else None
  | None => None
  end.

(** gauge.go:19-32 [maxConcurrency]; [var] is the value of FROZEN_CONCURRENCY, empty if it is not set. *)
Definition maxConcurrencyOf (var : string) : Z :=
  if String.eqb (toLower var) "off" then 2 ^ 63 - 1
  else match atoi var with Some z => z | None => 15 end.

Section WithEnv.
Context {E : Env}.

(** gauge.go:35 [maxDepth]; [procs] is [runtime.GOMAXPROCS(0)]. *)
Definition maxDepthOf (procs : Z) : Z := Z.quot (Z.of_N (bitlen (Z.to_N (procs - 1))) - 1) (Z.of_nat fb) + 1.

(** gauge.go:43-49 [NewGauge], compare [newGauge] in Env.v, where integers do not wrap around. *)
Definition gaugeOf (maxConcurrency maxDepth count : Z) : Z :=
  let g := Z.quot (int64 (Z.of_N (bitlen (Z.to_N count)) - maxConcurrency)) (Z.of_nat fb) in
  if maxDepth <? g then maxDepth else g.
Definition gaugeFor (var : string) (procs count : Z) : Z := gaugeOf (maxConcurrencyOf var) (maxDepthOf procs) count.

End WithEnv.
