(** * HasherText: the text of a hasher. *)
From Verif Require Import Base Bits Env EnvFacts.
Local Open Scope N_scope.

Section HasherText.
Context {E : Env}.

(** hasher.go:41-47: the loop for three bits per digit, as code points; each is a Braille pattern with the digits in its
    two columns. Eleven steps empty a 64-bit word. *)
Fixpoint octalPairs (steps : nat) (h : N) : res (list N) :=
  if h =? 0 then Ok [] else
  match steps with
  | O => Fuel
  | S n =>
      l <- octalPairs n (wshl 64 h 6) ;;
      Ok (0x2800 + N.of_nat (h_hash h) + N.shiftl (N.of_nat (h_hash (h_next h))) 3 :: l)
  end.

(** hasher.go:33-57 [hasher.String] as a list of code points. With two bits per digit, line 39 gives [fmt.Sprintf] a value of
    type [hasher] for the verb %x, and fmt then calls its method String (package fmt: an operand that implements it is formatted with
    it if the verb is valid for strings, as %x is). [dregs] is 0 then. Simplification: what would be done with the text is left
    out, since there is none ([c60_recurs]). The build tags give no other numbers of bits than two and three. *)
Fixpoint hs_string (fuel : nat) (h : N) : res (list N) :=
  match fuel with
  | O => Fuel
  | S k =>
      match env_build with
      | branch8 => l <- octalPairs 11 h ;; Ok (35 :: l)
      | branch4 | branch16 => hs_string k (N.shiftr h 0)
      end
  end.

(** masker.go:35-38 [Masker.String]. *)
Definition mk_string (m : N) : res (list N) := Panic.
End HasherText.
