(** * Text: String, Format and MarshalJSON (set.go, map.go, intset.go, kv.go, set_builder.go, set_extra.go,
    map_extra.go, the Format methods of internal/pkg/tree, internal/pkg/fu) and BitIterator.String.

    A Go string is a sequence of bytes, as is a Coq [string]; the literals below are UTF-8 encoded.
    Writing to the [fmt.State] never fails (it writes to a buffer in memory), so the panics on write errors in
    fu.go:42-62 are not modelled, and a Format method is the text it writes. *)
From Coq Require Import String Ascii DecimalString.
From Verif Require Import Base Bits Env Node Iter Tree SetApi MapApi IntSet.
Local Open Scope string_scope.
Local Open Scope Z_scope.

(** The parts of [fmt.State] and of the verb that the Format methods look at: the flag ['+'], the width
    (at least 0 if set: the fmt package turns a negative one into the flag ['-']), and the verb. *)
Record fstate := mkFS { fs_plus : bool; fs_width : option Z; fs_verb : ascii }.
(** The state of [Sprintf("%s", x)]. *)
Definition fs_s : fstate := mkFS false None "s"%char.
(** The state of [Sprintf("%v", x)]. *)
Definition fs_v : fstate := mkFS false None "v"%char.

(** The condition [verb == 'v' && f.Flag('+')] of set.go:135, map.go:247 and intset.go:93. *)
Definition debugs (f : fstate) : bool := (Ascii.eqb (fs_verb f) "v"%char && fs_plus f)%bool.

(** How values of a type are rendered: [fmt_v x] is what [fmt.Fprintf(f, "%v", x)] writes, [fmt_f f x] what
    [fu.Format(x, f, verb)] writes (fu.go:33-40: the Format method of [x] if it has one, and otherwise as
    [fmt.Fprint] does). These are the element type's business and stay abstract. *)
Class Fmt (T : Type) := { fmt_v : T -> string; fmt_f : fstate -> T -> string }.

(** [%d]. *)
Definition decimal (z : Z) : string := NilZero.string_of_int (Z.to_int z).
(** fu.go:9-15 [PadFormat]: the spaces it writes. *)
Fixpoint spaces (n : nat) : string := match n with O => "" | S n => " " ++ spaces n end.
Definition padFormat (f : fstate) (n : Z) : string :=
  match fs_width f with
  | Some w => if w - n >? 0 then spaces (Z.to_nat (w - n)) else ""
  | None => ""
  end.
(** fu.go:29-31 [IndentBlock]. *)
Fixpoint indentBlock (s : string) : string :=
  match s with
  | "" => ""
  | String c s' => if Ascii.eqb c "010"%char then String c ("    " ++ indentBlock s') else String c (indentBlock s')
  end.
(** The number of bytes written. *)
Definition bytes (s : string) : Z := Z.of_nat (String.length s).

(** ** The debugging format of the trie *)

(** branch.go:374-377 [branchStringIndices]. *)
Definition branchStringIndices : list string :=
  ["⁰"; "¹"; "²"; "³"; "⁴"; "⁵"; "⁶"; "⁷"; "⁸"; "⁹"; "¹⁰"; "¹¹"; "¹²"; "¹³"; "¹⁴"; "¹⁵"]%list.

Section TreeText.
Context {E : Env} {T : Type} {K : Key T} {ZT : Zero T} {F : Fmt T}.

(** The loop of twig.go:24-29 from the element with number [i] on. *)
Fixpoint twigText (f : fstate) (i : nat) (l : list T) : string :=
  match l with
  | [] => ""
  | e :: l' => (if (0 <? i)%nat then "," else "") ++ fmt_f f e ++ twigText f (S i) l'
  end.

(** leaf1.go:33-37, leaf2.go:22-28, twig.go:22-31, branch.go:379-427 [Format], and the String methods
    leaf1.go:41-43, leaf2.go:32-34, twig.go:35-37, branch.go:429-431 ([fs_s]).
    [total] counts only what branch.Format writes itself, not what its children write in Format.
    The buffer of branch.go:400-401 is passed at full length, so AppendTo starts with 20 zero values in a
    slice of capacity 20. *)
Fixpoint n_format (n : node T) (f : fstate) : res string :=
  match n with
  | Leaf1 a => Ok ("‹" ++ fmt_f f a ++ "›")
  | Leaf2 a b => Ok ("«" ++ fmt_f f a ++ "," ++ fmt_f f b ++ "»")
  | Twig l => Ok ("(" ++ twigText f 0 l ++ ")")
  | Branch mask data =>
      let shallow := match appendTo 20 (Branch mask data) (repeat zero 20) with Some _ => true | None => false end in
      let open := "⁅" ++ (if shallow then String "010" "" else "") in
      '(text, total) <-
        (fix go (ds : list (option (node T))) (i : nat) (first : bool) (total : Z) : res (string * Z) :=
           match ds with
           | [] => Ok ("", total)
           | None :: ds' => go ds' (S i) first total
           | Some x :: ds' =>
               match nth_error branchStringIndices i with
               | None => Panic
               | Some index =>
                   if shallow then
                     t <- n_format x fs_s ;;
                     let line := "   " ++ index ++ indentBlock t ++ String "010" "" in
                     '(rest, total') <- go ds' (S i) first (total + bytes line) ;;
                     Ok (line ++ rest, total')
                   else
                     let own := (if first then "" else " ") ++ index in
                     t <- n_format x f ;;
                     '(rest, total') <- go ds' (S i) false (total + bytes own) ;;
                     Ok (own ++ t ++ rest, total')
               end
           end) data 0%nat true (bytes open) ;;
      Ok (open ++ text ++ "⁆" ++ padFormat f (total + bytes "⁆"))
  end.

(** tree.go:41-46 [Tree.Format]: for the empty tree it writes ["∅"] and then calls the method on the nil
    root. (A caller that goes through the fmt package sees the panic as part of the text.) *)
Definition t_format (t : tree T) (f : fstate) : res string :=
  match t_root t with
  | None => Panic
  | Some n => n_format n f
  end.
(** tree.go:34-39 [Tree.String]. *)
Definition t_string (t : tree T) : res string :=
  match t_root t with
  | None => Ok "∅"
  | Some n => n_format n fs_s
  end.
End TreeText.

(** ** Sets *)

Section SetText.
Context {E : Env} {T : Type} {K : Key T} {ZT : Zero T} {F : Fmt T}.

(** The loop of set.go:144-153 from the iterator [it] on, after [n] elements; [count] is [s.Count()].
    (Each call of Next uses up one unit of fuel.) *)
Fixpoint setText (fuel : nat) (width : option Z) (count : Z) (it : iter T) (n : Z) : res string :=
  match fuel with
  | O => Fuel
  | S fuel =>
      '(ok, it') <- i_next it ;;
      if (ok : bool) then
        if match width with Some w => n =? w | None => false end then
          Ok (", ...(+" ++ decimal (count - n) ++ ")...")
        else
          v <- i_value it' ;;
          rest <- setText fuel width count it' (n + 1) ;;
          Ok ((if n >? 0 then ", " else "") ++ fmt_v v ++ rest)
      else Ok ""
  end.

(** set.go:134-155 [Set.Format]. *)
Definition s_format (s : set T) (f : fstate) : res string :=
  if debugs f then t <- t_format (s_tree s) f ;; Ok ("S" ++ t)
  else
    t <- setText (S (List.length (elemso (t_root (s_tree s))))) (fs_width f) (s_count s) (s_range s) 0 ;;
    Ok ("{" ++ t ++ "}").
(** set.go:129-131 [Set.String], fu.go:54-56 [fu.String]; lazy/set_frozen.go:16-18 calls it. *)
Definition s_string (s : set T) : res string := s_format s fs_s.

(** set_builder.go:51-53 [SetBuilder.Format], 43-45 [borrow]: reads the tree under construction. *)
Definition sb_format (b : setBuilder T) (f : fstate) : res string := s_format (mkSet (sb_tree b)) f.
(** set_builder.go:47-49 [SetBuilder.String]. *)
Definition sb_string (b : setBuilder T) : res string := s_string (mkSet (sb_tree b)).

(** set_extra.go:53-60 [Set.MarshalJSON]: the slice handed to json.Marshal (the encoding itself is the
    standard library's). *)
Definition s_marshal (s : set T) : res (list T) := s_elements s.
End SetText.

(** ** Maps and key-value pairs *)

Section MapText.
Context {E : Env} {X V : Type} {KX : Key X} {ZV : Zero V} {ZX : Zero X} {FX : Fmt X} {FV : Fmt V}.

(** kv.go:34-38 [KeyValue.Format]. *)
Definition kv_text (f : fstate) (k : X) (v : V) : string := fmt_f f k ++ ":" ++ fmt_f f v.
Definition kv_format (kv : keyValue X V) (f : fstate) : string := kv_text f (kv_key kv) (kv_val kv).
(** kv.go:29-31 [KeyValue.String]. *)
Definition kv_string (kv : keyValue X V) : string := kv_format kv fs_s.

(** mapEntry.go:9-11: [mapEntry] embeds [KeyValue] and inherits its Format method. *)
#[local] Instance entryFmt : Fmt (entry X V) :=
  {| fmt_v := fun e => kv_text fs_v (e_key e) (e_val e); fmt_f := fun f e => kv_text f (e_key e) (e_val e) |}.
#[local] Instance entryZero : Zero (entry X V) := {| zero := mkEntry zero zero |}.

(** The loop of map.go:254-261 from the iterator [it] on, after [n] entries. *)
Fixpoint mapText (fuel : nat) (f : fstate) (it : @mapIter X V) (n : Z) : res string :=
  match fuel with
  | O => Fuel
  | S fuel =>
      '(ok, it') <- mi_next it ;;
      if (ok : bool) then
        match mi_entry it' with
        | None => Panic
        | Some (k, v) =>
            rest <- mapText fuel f it' (n + 1) ;;
            Ok ((if n >? 0 then ", " else "") ++ fmt_f f k ++ ": " ++ fmt_f f v ++ rest)
        end
      else Ok ""
  end.
(** map.go:246-263 [Map.Format]. *)
Definition m_format (m : gomap X V) (f : fstate) : res string :=
  if debugs f then t <- t_format (m_tree m) f ;; Ok ("M" ++ t)
  else
    t <- mapText (S (List.length (elemso (t_root (m_tree m))))) f (m_range m) 0 ;;
    Ok ("(" ++ t ++ ")").
(** map.go:241-243 [Map.String]. *)
Definition m_string (m : gomap X V) : res string := m_format m fs_v.
End MapText.

(** ** Integer sets *)

Section IntText.
Context {E : Env} (I : intTy) {FZ : Fmt Z} {FN : Fmt N}.

(** The loop of intset.go:99-102 from the iterator [r] on, after [i] values; fu.go:25-27 [Comma],
    17-23 [Sep]. *)
Fixpoint intText (fuel : nat) (f : fstate) (r : intIter) (i : Z) : res string :=
  match fuel with
  | O => Fuel
  | S fuel =>
      '(ok, r') <- ii_next r ;;
      if (ok : bool) then
        rest <- intText fuel f r' (i + 1) ;;
        Ok ((if i >? 0 then ", " else "") ++ fmt_f f (ii_value I r') ++ rest)
      else Ok ""
  end.
(** intset.go:92-104 [IntSet.Format]; [%+v] prints the map of cells as [fmt.Fprint] does. *)
Definition is_format (s : intSet) (f : fstate) : res string :=
  if debugs f then m_format (ZX := {| zero := 0 |}) (is_data s) fs_v
  else
    t <- intText (S (64 * List.length (elemso (t_root (m_tree (is_data s)))))) f (is_range s) 0 ;;
    Ok ("[" ++ t ++ "]").
(** intset.go:87-89 [IntSet.String]. *)
Definition is_string (s : intSet) : res string := is_format s fs_s.
End IntText.

(** ** Braille *)

(** braille.go:7-32 [brailleBytes] as code points; the operators of line 26 group from the left. *)
Definition brailleMappings : list (N * N) :=
  [(7, 0); (3, 3); (6, 1); (2, 4); (5, 2); (1, 5); (4, 6); (0, 7)]%N%list.
Definition brailleByte (i : N) : N :=
  if (i =? 0)%N then 126
  else fold_left (fun r m => N.lor r (N.shiftl (N.land (N.shiftr i (fst m)) 1) (snd m))) brailleMappings 0x2800%N.
(** braille.go:34-40 [BrailleEncoded] as a list of code points: eight steps empty a 64-bit word. *)
Fixpoint brailleEncoded (steps : nat) (i : N) : res (list N) :=
  if (i =? 0)%N then Ok [] else
  match steps with
  | O => Fuel
  | S n => l <- brailleEncoded n (wshl 64 i 8) ;; Ok (brailleByte (N.shiftr i 56) :: l)
  end.
(** [bits.Reverse64]. *)
Definition reverse64 (b : N) : N :=
  fold_left (fun r j => if N.testbit b (N.of_nat j) then N.setbit r (N.of_nat (63 - j)) else r) (seq 0 64) 0%N.
(** bititer.go:36-38 [BitIterator.String] as a list of code points. *)
Definition bi_string (b : N) : res (list N) := brailleEncoded 8 (reverse64 b).
