{
 "claims": [
  {
   "property": "C01",
   "status": "proved",
   "theorems": [
    "C01_has",
    "C01_with",
    "C01_without"
   ],
   "note": ""
  },
  {
   "property": "C02",
   "status": "proved",
   "theorems": [
    "C02_union",
    "C02_intersection",
    "C02_difference",
    "C02_symmetricDifference"
   ],
   "note": "For Union and SymmetricDifference the statement is about calls that return; when they panic is settled by C19. Intersection and Difference are proved to return."
  },
  {
   "property": "C03",
   "status": "proved",
   "theorems": [
    "C03_count"
   ],
   "note": ""
  },
  {
   "property": "C04",
   "status": "proved",
   "theorems": [
    "C04_range"
   ],
   "note": ""
  },
  {
   "property": "C05",
   "status": "proved",
   "theorems": [
    "C05_equal",
    "C05_equivalence"
   ],
   "note": ""
  },
  {
   "property": "C06",
   "status": "proved",
   "theorems": [
    "C06_isSubsetOf"
   ],
   "note": ""
  },
  {
   "property": "C07",
   "status": "proved",
   "theorems": [
    "C07_hash",
    "C07_lawful"
   ],
   "note": ""
  },
  {
   "property": "C08",
   "status": "proved",
   "theorems": [
    "C08_where",
    "C08_comprehension"
   ],
   "note": ""
  },
  {
   "property": "C09",
   "status": "proved",
   "theorems": [
    "C09_map",
    "C09_asAny",
    "C09_as"
   ],
   "note": ""
  },
  {
   "property": "C10",
   "status": "proved",
   "theorems": [
    "C10_reduce",
    "C10_any_order",
    "C10_never_empty",
    "C10_reduce2"
   ],
   "note": ""
  },
  {
   "property": "C11",
   "status": "proved",
   "theorems": [
    "C11_powerset",
    "C11_big"
   ],
   "note": ""
  },
  {
   "property": "C12",
   "status": "proved",
   "theorems": [
    "C12_groupBy"
   ],
   "note": ""
  },
  {
   "property": "C13",
   "status": "proved",
   "theorems": [
    "C13_orderedElements",
    "C13_orderedFirstN",
    "C13_first",
    "C13_negative"
   ],
   "note": ""
  },
  {
   "property": "C14",
   "status": "proved",
   "theorems": [
    "C14_any",
    "C14_anyN"
   ],
   "note": ""
  },
  {
   "property": "C15",
   "status": "proved",
   "theorems": [
    "C15_unionN",
    "C15_unionN_total",
    "C15_unionN_returns",
    "C15_intersectionN",
    "C15_intersection0"
   ],
   "note": "For Union the statement is about calls that return; C15_unionN_returns gives a sufficient condition for returning."
  },
  {
   "property": "C16",
   "status": "proved",
   "theorems": [
    "C16_builder",
    "C16_finished_reachable",
    "C16_newSet"
   ],
   "note": ""
  },
  {
   "property": "C17",
   "status": "proved",
   "theorems": [
    "C17_isolated",
    "C17_get",
    "C17_builder",
    "C17_agree",
    "C17_values"
   ],
   "note": "In the heap model with Go slices (length and capacity) and an arbitrary growth policy of append. C17_isolated: builder commands (New, Add, Remove, Finish) leave every set readable exactly as before; C17_builder: a builder is changed by its own commands only; C17_agree: the sets that programs of builders make are those of the value model; C17_values: in every program, even where set operations overwrite other sets (C18), each builder and the set made of it are those of the value model."
  },
  {
   "property": "C18",
   "status": "partial",
   "theorems": [
    "C18_others_partial",
    "C18_no_overwrite_partial",
    "C18_no_overwrite_values_partial",
    "C18_hash_partial",
    "C18_hash_values_partial",
    "C18_refuted",
    "C18_with_refuted",
    "C18_union_refuted",
    "C18_map_refuted"
   ],
   "note": "False of the code: twig.With appends to a bucket's array in place, so with any growth policy two Withs from one set can share a slot and the second changes the result of the first (C18_refuted for every growth policy; C18_with_refuted, C18_union_refuted and C18_map_refuted are concrete). Proved: every command other than With and Combine leaves all sets unchanged (C18_others_partial); all commands do if no slot is overwritten (C18_no_overwrite_partial), which holds when no three different elements share a 64-bit hash (C18_hash_partial)."
  },
  {
   "property": "C19",
   "status": "partial",
   "theorems": [
    "C19_union_exact_partial",
    "C19_no_triples_partial",
    "C19_triples",
    "C19_merge_exact_partial",
    "C19_union_refuted",
    "C19_self_union_refuted",
    "C19_keyValue_refuted",
    "C19_merge_refuted"
   ],
   "note": "The property is false of the code: C19_union_refuted, C19_self_union_refuted, C19_keyValue_refuted and C19_merge_refuted give reachable operands for which Union, Merge and Update panic (twig.Combine, leaf.Combine with a bucket). C19_union_exact_partial and C19_merge_exact_partial give the exact condition (Overfull) under which they panic, and prove that they return otherwise."
  },
  {
   "property": "C20",
   "status": "proved",
   "theorems": [
    "C20_union",
    "C20_intersection",
    "C20_difference",
    "C20_symmetricDifference",
    "C20_where",
    "C20_equal",
    "C20_isSubsetOf",
    "C20_reduce",
    "C20_reduce2",
    "C20_merge",
    "C20_update",
    "C20_mapEqual"
   ],
   "note": "Concurrency.v models Gauge.Parallel as a machine: the caller, one worker per child, the shared result branch and its racy mask (read and write are separate steps), the cell written by flipped calls, nested parallel calls and the outcome channel, for any depth limit of parallelism. Each theorem says that under every interleaving the call ends, with exactly the outcome of the sequential model (the same tree and count, or a panic), and that the outcome is the same for every parallelism configuration. Simplifications, stated in the model: sequentially consistent memory, work on one child between two accesses to shared state is one step, goroutines still running after an early return of Parallel are dropped (they cannot affect the result)."
  },
  {
   "property": "C21",
   "status": "proved",
   "theorems": [
    "C21_answers",
    "C21_with",
    "C21_without",
    "C21_variants",
    "C21_any"
   ],
   "note": ""
  },
  {
   "property": "C22",
   "status": "proved",
   "theorems": [
    "C22_merge",
    "C22_merge_answers"
   ],
   "note": "About calls that return; when Merge panics is settled by C19."
  },
  {
   "property": "C23",
   "status": "proved",
   "theorems": [
    "C23_update"
   ],
   "note": "About calls that return; when Update panics is settled by C19."
  },
  {
   "property": "C24",
   "status": "proved",
   "theorems": [
    "C24_range",
    "C24_keys",
    "C24_values",
    "C24_fromGoMap",
    "C24_goMap_roundtrip"
   ],
   "note": ""
  },
  {
   "property": "C25",
   "status": "proved",
   "theorems": [
    "C25_where",
    "C25_project",
    "C25_fromKeys",
    "C25_get_entry",
    "C25_map"
   ],
   "note": ""
  },
  {
   "property": "C26",
   "status": "proved",
   "theorems": [
    "C26_equal",
    "C26_same"
   ],
   "note": ""
  },
  {
   "property": "C27",
   "status": "proved",
   "theorems": [
    "C27_hash",
    "C27_lawful"
   ],
   "note": ""
  },
  {
   "property": "C28",
   "status": "proved",
   "theorems": [
    "C28_builder",
    "C28_newMap"
   ],
   "note": ""
  },
  {
   "property": "C29",
   "status": "proved",
   "theorems": [
    "C29_depth",
    "C29_shape",
    "C29_vet",
    "C29_lookup",
    "C29_builder",
    "C29_map",
    "C29_mapBuilder"
   ],
   "note": ""
  },
  {
   "property": "C30",
   "status": "partial",
   "theorems": [
    "C30_reads_partial",
    "C30_empty_partial",
    "C30_new_partial",
    "C30_with_partial",
    "C30_without_partial",
    "C30_union_partial",
    "C30_intersection_partial",
    "C30_where_partial",
    "C30_map_partial",
    "C30_isSubsetOf_partial",
    "C30_equal_partial",
    "C30_hash_partial",
    "C30_unsigned",
    "C30_negative",
    "C30_refuted",
    "C30_minus_one_refuted"
   ],
   "note": "Proved in full for the unsigned types (C30_unsigned). For signed types the property is false of the code (C30_refuted, C30_minus_one_refuted): locateCell shifts by uint(i%64), which for a negative i that is not a multiple of 64 is at least 64, so the mask is 0; With then counts the integer without adding it (C30_negative). The _partial theorems cover every history in which all integers are non-negative or multiples of 64."
  },
  {
   "property": "C31",
   "status": "proved",
   "theorems": [
    "C31_enumerates",
    "C31_first",
    "C31_firstIsIn",
    "C31_subsetOf"
   ],
   "note": ""
  },
  {
   "property": "C32",
   "status": "partial",
   "theorems": [
    "C32_has",
    "C32_with",
    "C32_next",
    "C32_enumerates",
    "C32_without_refuted",
    "C32_without_computes",
    "C32_without_zero_partial"
   ],
   "note": "Has, With, Count and Next/Index are proved. Without is refuted (C32_without_refuted): by Go's operator precedence it computes (b &^ 1) << i (C32_without_computes); it is right for i = 0 only in general (C32_without_zero_partial)."
  },
  {
   "property": "C33",
   "status": "proved",
   "theorems": [
    "C33_iota3",
    "C33_iota3_zero",
    "C33_forever",
    "C33_mask"
   ],
   "note": ""
  },
  {
   "property": "C34",
   "status": "proved",
   "theorems": [
    "C34_range",
    "C34_restart",
    "C34_all_bits"
   ],
   "note": ""
  },
  {
   "property": "C35",
   "status": "partial",
   "theorems": [
    "C35_has_partial",
    "C35_difference_refuted",
    "C35_symmetricDifference_refuted",
    "C35_history_refuted",
    "C35_fastHas_refuted",
    "C35_powerset_refuted",
    "C35_fastHas_partial"
   ],
   "note": "False of the code for differences and symmetric differences (difference.Has is a.Has || b.Has: C35_difference_refuted, C35_symmetricDifference_refuted, C35_history_refuted), for FastHas of unions and differences (both ask the first operand twice: C35_fastHas_refuted) and for power sets (C35_powerset_refuted). C35_has_partial and C35_fastHas_partial prove it for the other expressions. The theorems are about every program of the lazy package in which no set that is asked with Has during an iteration is a Difference, SymmetricDifference or power set, and Powerset is called on sets that allow it (SessionOk, PowFine: 1 to 62 elements, and the interface values that hold the subsets have a lawful Equal and Hash; the lazy package's own Hash is lawful for at most one element, C38_hash_refuted): any number of goroutines, each calling the exported methods on shared and own sets, under every schedule and so after every history of calls."
  },
  {
   "property": "C36",
   "status": "partial",
   "theorems": [
    "C36_value_partial",
    "C36_all_partial",
    "C36_once_partial",
    "C36_twice_refuted",
    "C36_difference_refuted",
    "C36_freeze_partial"
   ],
   "note": "Proved: every value is an element and every element is given (C36_value_partial, C36_all_partial), each once if OnceFine (C36_once_partial), and Freeze (C36_freeze_partial). Refuted: duplicates from (A union B).Difference(empty) (C36_twice_refuted), wrong elements when the iteration asks a difference (C36_difference_refuted). Power sets are included: their iterator gives every subset once. The theorems are about every program of the lazy package in which no set that is asked with Has during an iteration is a Difference, SymmetricDifference or power set, and Powerset is called on sets that allow it (SessionOk, PowFine: 1 to 62 elements, and the interface values that hold the subsets have a lawful Equal and Hash; the lazy package's own Hash is lawful for at most one element, C38_hash_refuted): any number of goroutines, each calling the exported methods on shared and own sets, under every schedule and so after every history of calls."
  },
  {
   "property": "C37",
   "status": "partial",
   "theorems": [
    "C37_isEmpty_partial",
    "C37_isEmpty_refuted",
    "C37_fastIsEmpty_partial",
    "C37_count_partial",
    "C37_count_refuted",
    "C37_powerset_refuted",
    "C37_fastCount_partial",
    "C37_countUpTo_partial",
    "C37_limit_refuted",
    "C37_fastCountUpTo_partial"
   ],
   "note": "Proved for sets that do not meet a value twice (CountFine) and non-negative limits. Refuted: Count of an overlapping union depends on the history (C37_count_refuted), IsEmpty of the power set of the empty set (C37_isEmpty_refuted), Count of the power set of 63 elements is negative (C37_powerset_refuted), negative limits (C37_limit_refuted). The theorems are about every program of the lazy package in which no set that is asked with Has during an iteration is a Difference, SymmetricDifference or power set, and Powerset is called on sets that allow it (SessionOk, PowFine: 1 to 62 elements, and the interface values that hold the subsets have a lawful Equal and Hash; the lazy package's own Hash is lawful for at most one element, C38_hash_refuted): any number of goroutines, each calling the exported methods on shared and own sets, under every schedule and so after every history of calls."
  },
  {
   "property": "C38",
   "status": "partial",
   "theorems": [
    "C38_equalSet_partial",
    "C38_equal_partial",
    "C38_empty_refuted",
    "C38_isSubsetOf_partial",
    "C38_hash_partial",
    "C38_hash_refuted",
    "C38_hash_small_partial"
   ],
   "note": "Equal, EqualSet and IsSubsetOf are proved (argument OnceFine, receiver of Equal not EmptySet). Refuted: EmptySet.Equal is true of every set (C38_empty_refuted); equal sets can have different hashes (C38_hash_refuted); the hash folds the element hashes in iteration order (C38_hash_partial), so the hash part holds for sets of at most one element (C38_hash_small_partial). The theorems are about every program of the lazy package in which no set that is asked with Has during an iteration is a Difference, SymmetricDifference or power set, and Powerset is called on sets that allow it (SessionOk, PowFine: 1 to 62 elements, and the interface values that hold the subsets have a lawful Equal and Hash; the lazy package's own Hash is lawful for at most one element, C38_hash_refuted): any number of goroutines, each calling the exported methods on shared and own sets, under every schedule and so after every history of calls."
  },
  {
   "property": "C39",
   "status": "partial",
   "theorems": [
    "C39_runs_partial",
    "C39_ends_partial",
    "C39_complete_partial",
    "C39_next_refuted",
    "C39_stable_partial",
    "C39_unstable_refuted"
   ],
   "note": "Proved: under every schedule no goroutine panics or gets stuck (C39_runs_partial), each fairly scheduled goroutine ends (C39_ends_partial), a memoised set is at its source or at a complete copy (C39_complete_partial), a stored copy never changes contents (C39_stable_partial). Atomic pointer operations are taken as sequentially consistent, as Go's sync/atomic guarantees. Refuted: calling Next again after it has answered false stores the empty set (C39_next_refuted); with a Difference under Has the stored copy can change (C39_unstable_refuted). The theorems are about every program of the lazy package in which no set that is asked with Has during an iteration is a Difference, SymmetricDifference or power set, and Powerset is called on sets that allow it (SessionOk, PowFine: 1 to 62 elements, and the interface values that hold the subsets have a lawful Equal and Hash; the lazy package's own Hash is lawful for at most one element, C38_hash_refuted): any number of goroutines, each calling the exported methods on shared and own sets, under every schedule and so after every history of calls."
  },
  {
   "property": "C40",
   "status": "partial",
   "theorems": [
    "C40_join_partial",
    "C40_joinN_partial",
    "C40_returns_partial",
    "C40_empty_first",
    "C40_empty_second",
    "C40_refuted",
    "C40_no_operand",
    "C40_commutes"
   ],
   "note": "False of the code for an empty second operand: Join(s, {}) is s (C40_empty_second, C40_refuted), and Join() panics (C40_no_operand). C40_join_partial and C40_joinN_partial prove the natural join for calls that return and whose later operands are non-empty; C40_returns_partial proves that they return if no three different attributes share a 64-bit hash (otherwise Update can panic, see C19)."
  },
  {
   "property": "C41",
   "status": "proved",
   "theorems": [
    "C41_reach",
    "C41_new",
    "C41_new_header",
    "C41_new_mismatch",
    "C41_project",
    "C41_cartesian",
    "C41_cartesian_returns"
   ],
   "note": "For CartesianProduct the statement is about calls that return; C41_cartesian_returns proves that it returns if no three different attributes share a 64-bit hash (see C19). Rows of the wrong length make New panic (C41_new_mismatch)."
  },
  {
   "property": "C42",
   "status": "partial",
   "theorems": [
    "C42_nest_partial",
    "C42_nest_returns",
    "C42_no_attribute",
    "C42_several",
    "C42_several_refuted",
    "C42_single",
    "C42_nest_one_partial",
    "C42_inverse_partial",
    "C42_inverse_returns",
    "C42_unnest_partial",
    "C42_unnest_returns"
   ],
   "note": "Proved for a single nested attribute (C42_nest_one_partial, C42_inverse_partial), and for Unnest whenever the nested tuples have the same attributes in common with the rest (C42_unnest_partial). With several entries the property is false of the code: Nest removes the intersection, not the union, of the attribute sets (C42_nest_partial says what is computed; C42_several, C42_several_refuted). With no entry Nest panics (C42_no_attribute). Calls return if no three different attributes share a 64-bit hash (C42_nest_returns, C42_inverse_returns, C42_unnest_returns)."
  },
  {
   "property": "C43",
   "status": "proved",
   "theorems": [
    "C43_lawful",
    "C43_same"
   ],
   "note": ""
  },
  {
   "property": "C44",
   "status": "partial",
   "theorems": [
    "C44_format",
    "C44_string",
    "C44_debug_partial",
    "C44_builder",
    "C44_map_debug_partial",
    "C44_debug_empty_refuted"
   ],
   "note": "False of the code for %+v of an empty set or map: Tree.Format lacks a return after writing the empty-set sign and calls Format on the nil root (C44_debug_empty_refuted; the fmt package shows the panic in the text). Proved: the text of every set without %+v for every width (C44_format, C44_string, C44_builder), and %+v of nonempty sets and maps (C44_debug_partial, C44_map_debug_partial). With width 0 a nonempty set prints as {, ...(+n)...} (C44_width0_run)."
  },
  {
   "property": "C45",
   "status": "proved",
   "theorems": [
    "C45_map",
    "C45_map_string",
    "C45_keyValue",
    "C45_intSet"
   ],
   "note": "Rendering of single keys, values and integers is abstract (class Fmt)."
  },
  {
   "property": "C46",
   "status": "proved",
   "theorems": [
    "C46_set",
    "C46_array",
    "C46_object"
   ],
   "note": "The slice or Go map handed to json.Marshal is modelled; the encoding is the standard library's."
  },
  {
   "property": "C47",
   "status": "partial",
   "theorems": [
    "C47_same_partial",
    "C47_injective",
    "C47_object",
    "C47_leaves_partial",
    "C47_single_partial",
    "C47_refuted"
   ],
   "note": "The first part is false of the code: a leaf of two elements keeps their insertion order, so NewSet(1, 2) and NewSet(2, 1) are Equal but print differently (C47_refuted). Proved: Equal sets print the same element texts up to order (C47_same_partial), leaf by leaf of the trie in the same order, so that they differ at most within a leaf (C47_leaves_partial) and not at all if every leaf has one element (C47_single_partial), the converse (C47_injective), and equal string-keyed maps give json.Marshal the same Go map (C47_object)."
  },
  {
   "property": "C48",
   "status": "proved",
   "theorems": [
    "C48_returns",
    "C48_injective",
    "C48_shows"
   ],
   "note": ""
  },
  {
   "property": "C49",
   "status": "proved",
   "theorems": [
    "C49_lawful",
    "C49_returns",
    "C49_static",
    "C49_depth",
    "C49_set",
    "C49_map",
    "C49_kv",
    "C49_setEqual",
    "C49_mapEqual"
   ],
   "note": ""
  },
  {
   "property": "C50",
   "status": "partial",
   "theorems": [
    "C50_funcFor_partial",
    "C50_refuted"
   ],
   "note": "The full claim is false of the code: for a type without ==, EqualFuncFor hashes the zero value and the deferred recover() does not stop the panic (C50_refuted). Proved for basic types, any, and the container types (C50_funcFor_partial); user-defined types with their own Equal or Same are not modelled."
  },
  {
   "property": "C51",
   "status": "proved",
   "theorems": [
    "C51_buffer",
    "C51_independent"
   ],
   "note": ""
  },
  {
   "property": "C52",
   "status": "partial",
   "theorems": [
    "C52_builder",
    "C52_others_partial",
    "C52_builders_apart",
    "C52_get",
    "C52_quiet_partial",
    "C52_quiet_ends_partial",
    "C52_no_overwrite_partial",
    "C52_new_partial",
    "C52_hash_partial",
    "C52_hash_ends_partial",
    "C52_hash_values_partial",
    "C52_race_refuted",
    "C52_refuted"
   ],
   "note": "False of the code: two With calls on one set can assign to the same slot of the set's bucket (C52_race_refuted), and a goroutine can end with an element another one added (C52_refuted). Proved: builders assign to no memory of sets (C52_builder) or of other builders (C52_builders_apart), Get assigns to nothing (C52_get), Without, Difference, Intersection and Where assign to no memory of sets (C52_others_partial), and no command does while append overwrites no slot in use (C52_no_overwrite_partial). Goroutines that use shared sets in any way except With and Combine finish in every interleaving as if alone (C52_quiet_partial, C52_quiet_ends_partial); where no three different elements share a 64-bit hash this holds with With and Combine, too, and the results are those on values (C52_new_partial, C52_hash_partial, C52_hash_ends_partial, C52_hash_values_partial)."
  },
  {
   "property": "C53",
   "status": "proved",
   "theorems": [
    "C53_levels",
    "C53_with",
    "C53_without",
    "C53_add",
    "C53_remove",
    "C53_with_shares",
    "C53_without_shares",
    "C53_without_absent",
    "C53_get"
   ],
   "note": "Counts nodes and bucket arrays of the heap model; what the Go runtime allocates for boxed elements or iterator closures is not modelled. Unlike Without of an absent element, With of an element that is there does copy the path (C53_without_absent_run)."
  },
  {
   "property": "C54",
   "status": "partial",
   "theorems": [
    "C54_reads_partial",
    "C54_reduce2",
    "C54_apart_partial",
    "C54_order_partial",
    "C54_hash_partial",
    "C54_refuted",
    "C54_sort_refuted",
    "C54_append_refuted"
   ],
   "note": "False of the code: leaf2.Reduce and twig.Reduce pass their own arrays to the callback (r(l.data[:]...), r(l.data...)), so a callback that assigns to its arguments changes the set (C54_refuted), one that only sorts them can change the elements of a set that shares a bucket array (C54_sort_refuted), and one that appends can replace an element of another set (C54_append_refuted). Proved: Reduce2 with any function, and Reduce with a callback that only reads, give the result on values and change nothing (C54_reduce2, C54_reads_partial); whatever the callback does, sets with no node or array in common with the one Reduce is called for keep their value (C54_apart_partial); a callback that only reorders its arguments leaves the elements of all sets whose buckets fill the used part of their arrays (C54_order_partial), hence of all sets where no three different elements share a 64-bit hash (C54_hash_partial)."
  },
  {
   "property": "C55",
   "status": "proved",
   "theorems": [
    "C55_where",
    "C55_reduce",
    "C55_reduce2",
    "C55_map",
    "C55_groupBy",
    "C55_mapWhere",
    "C55_mapMap",
    "C55_fromKeys",
    "C55_merge",
    "C55_merge_panic",
    "C55_intWhere",
    "C55_intMap"
   ],
   "note": "The calls are modelled one after the other. Where, Merge and Reduce of large tries make them from several goroutines (C20); the order is then not determined and a callback with state needs its own synchronisation. The theorems therefore state which calls Where, Merge, Reduce and Reduce2 make, and the exact order only for the loops over Range."
  },
  {
   "property": "C56",
   "status": "proved",
   "theorems": [
    "C56_set",
    "C56_builder",
    "C56_fails",
    "C56_map",
    "C56_maps",
    "C56_mapBuilder",
    "C56_copy",
    "C56_backup",
    "C56_fails_second",
    "C56_fails_builder"
   ],
   "note": "Modelled with VetReruns off; with it on, a failing check loops forever."
  },
  {
   "property": "C57",
   "status": "partial",
   "theorems": [
    "C57_images_partial",
    "C57_returns_partial",
    "C57_map_partial",
    "C57_panic_refuted",
    "C57_resolve_refuted"
   ],
   "note": "False of the code in two respects: the method panics where children have three or more images of one hash (C57_panic_refuted, see C19), and leaf2.Map keeps the first of two equal images without asking args.f (C57_resolve_refuted). Proved: where it returns the result holds exactly the images, each an image or made of images by args.f, passes Vet, and equals SetMap's result (C57_images_partial, C57_map_partial); it returns if no three different elements share a 64-bit hash (C57_returns_partial). The method is dead code."
  },
  {
   "property": "C58",
   "status": "proved",
   "theorems": [
    "C58_has",
    "C58_with",
    "C58_without",
    "C58_add",
    "C58_remove",
    "C58_with_asks",
    "C58_without_asks",
    "C58_add_asks",
    "C58_remove_asks",
    "C58_new",
    "C58_difference",
    "C58_subset",
    "C58_intersection",
    "C58_equal",
    "C58_union",
    "C58_get",
    "C58_map_with",
    "C58_map_without",
    "C58_update"
   ],
   "note": "Counts calls on runs that return. Not counted: goroutines that Gauge.Parallel has started and not waited for when it stops early, and calls made before a panic."
  },
  {
   "property": "C59",
   "status": "proved",
   "theorems": [
    "C59_vet",
    "C59_reach"
   ],
   "note": "That maps and builders pass is C29_map, C29_builder and C29_mapBuilder. Trees deeper than the model's bound of levels are out of scope; the API reaches none."
  },
  {
   "property": "C60",
   "status": "partial",
   "theorems": [
    "C60_text_partial",
    "C60_injective_partial",
    "C60_recurs",
    "C60_masker",
    "C60_refuted"
   ],
   "note": "False of the builds branch4 and branch16: line 39 of hasher.go formats the hasher with %x, for which fmt calls String again, without end (C60_refuted, C60_recurs; fmt is modelled by its documentation). Proved for the default build (C60_text_partial, C60_injective_partial). Masker.String, in the same position, always panics (C60_masker)."
  },
  {
   "property": "C61",
   "status": "proved",
   "theorems": [
    "C61_combine_shares",
    "C61_difference_shares",
    "C61_intersection_shares",
    "C61_where_shares",
    "C61_where",
    "C61_combine",
    "C61_difference",
    "C61_intersection",
    "C61_where_all"
   ],
   "note": "Counts nodes and bucket arrays of the heap model, like C53. The bounds by the smaller set assume that no three different elements share a 64-bit hash (noTripleHash, as in C18); the sharing theorems and Where's bound do not. Where copies a bucket even if every element stays (C61_where_all_run)."
  },
  {
   "property": "C62",
   "status": "partial",
   "theorems": [
    "C62_slices",
    "C62_strings_refuted",
    "C62_strings_panic",
    "C62_strings_ascending_partial",
    "C62_maps",
    "C62_maps_refuted",
    "C62_packers"
   ],
   "note": "Proved for slices and arrays (C62_slices) and EqualPacker (C62_packers). False of strings (C62_strings_refuted: \"ab\" and \"ba\"; C62_strings_panic; only C62_strings_ascending_partial holds) and of maps, of which only empty ones match (C62_maps, C62_maps_refuted), unless their keys are held as pointers, which is not modelled. Strings of more than 12 bytes are not modelled (sort.Slice is then not an insertion sort)."
  },
  {
   "property": "C63",
   "status": "partial",
   "theorems": [
    "C63_disabled",
    "C63_quiet",
    "C63_polite_partial",
    "C63_places_refuted",
    "C63_confused",
    "C63_refuted"
   ],
   "note": "Proved for tests that never replay (C63_quiet), for disabled replaying (C63_disabled), and for tests that stop replaying once they have met the target (C63_polite_partial). False of a test that replays wherever it fails (C63_refuted: it never ends), and markers of different places with the same arguments are confused (C63_places_refuted, C63_confused). What runtime.Callers counts as a frame is taken from its documentation."
  },
  {
   "property": "C64",
   "status": "proved",
   "theorems": [
    "C64_twins",
    "C64_sizes",
    "C64_order",
    "C64_nearby",
    "C64_again",
    "C64_builder",
    "C64_maps"
   ],
   "note": "For the sequential model of layers 2 and 3; with C18's aliasing (three elements of one hash and shared arrays) a set's elements can change after it was made, which is the heap model's subject."
  },
  {
   "property": "C65",
   "status": "proved",
   "theorems": [
    "C65_meaning",
    "C65_laws",
    "C65_only",
    "C65_inclusions",
    "C65_operands",
    "C65_update",
    "C65_update_keys",
    "C65_update_merge",
    "C65_merge_flip",
    "C65_merge"
   ],
   "note": "A law is about the results: one side can panic (C19: three elements of one hash on both sides of a union) where the other does not; C65_one_side shows it for a distributive law. For the sequential model of layers 2 and 3."
  },
  {
   "property": "C66",
   "status": "partial",
   "theorems": [
    "C66_holds",
    "C66_fails",
    "C66_conditions",
    "C66_badMessage",
    "C66_tests",
    "C66_panic_partial",
    "C66_panic_refuted",
    "C66_nil_refuted",
    "C66_noPanic_partial",
    "C66_fail",
    "C66_failNow_refuted",
    "C66_words_refuted"
   ],
   "note": "Refuted: with a message that is not a string (the tests pass some, e.g. intset_test.go:56) a failing assertion panics instead of marking the test (C66_badMessage), and Panic takes that panic for the function's and accepts one that returns (C66_panic_refuted); a panic with nil makes Panic and NoPanic answer false without marking the test (C66_nil_refuted, go 1.19 as in go.mod); FailNow does not end the test (C66_failNow_refuted); NotEqual says x != y of equal values (C66_words_refuted). Proved: the rest, for messages that are strings and panics with values other than nil. The texts fmt makes of values are parameters, as are the answers of reflect.DeepEqual and sameElements (C62)."
  },
  {
   "property": "C67",
   "status": "proved",
   "theorems": [
    "C67_from",
    "C67_refines",
    "C67_returns",
    "C67_determined",
    "C67_environments"
   ],
   "note": "Elements and values are of one type each in a program (SetMap and MapMap keep the type); groups, powersets, ordered views, text and hashes are not among its steps (C09, C12, C11, C10, C44, C07 treat them). Functions passed in do not tell equal elements apart. For the sequential model of layers 2 and 3."
  },
  {
   "property": "C68",
   "status": "partial",
   "theorems": [
    "C68_new",
    "C68_intersection_partial",
    "C68_intersection_two_partial",
    "C68_intersection_swap_partial",
    "C68_setMap",
    "C68_newMap",
    "C68_update",
    "C68_merge",
    "C68_project",
    "C68_values",
    "C68_intersection_refuted"
   ],
   "note": "Refuted for Intersection (C68_intersection_refuted): where the larger set's trie ends in a leaf of one or two elements at a level where the smaller set still has three or more, the larger set's element is kept, since branch.Intersection hands over to the leaf (branch.go:194-197). C68_intersection_partial says exactly which element is kept; C68_intersection_two_partial and C68_intersection_swap_partial are the cases where the claim holds for a set of at most two elements, and where the order of the operands makes no difference. The other operations are as claimed. Union, With, Difference and the rest are in C01, C02 and C22-C25."
  },
  {
   "property": "C69",
   "status": "partial",
   "theorems": [
    "C69_reads",
    "C69_values_partial",
    "C69_hash_partial",
    "C69_builders_partial",
    "C69_loop_values_partial",
    "C69_loop_hash_partial",
    "C69_loop_builders_partial",
    "C69_refuted"
   ],
   "note": "Refuted (C69_refuted) for every growth policy, with the fault of C18: With and Union can overwrite a slot of a bucket that another set uses, and a loop over that set, already under way, then sees the new element instead of its own. C69_values_partial and C69_loop_values_partial prove the claim for every program in which that does not happen; C69_hash_partial and C69_loop_hash_partial for all programs whose elements do not share hashes in threes; C69_builders_partial and C69_loop_builders_partial for all programs that work with builders only. That questions, Next and Value write nothing holds without restriction (C69_reads)."
  },
  {
   "property": "C70",
   "status": "proved",
   "theorems": [
    "C70_union",
    "C70_intersection",
    "C70_difference",
    "C70_symmetricDifference",
    "C70_where",
    "C70_equal",
    "C70_isSubsetOf",
    "C70_reduce",
    "C70_merge",
    "C70_update",
    "C70_mapEqual",
    "C70_gauge",
    "C70_off",
    "C70_default",
    "C70_cores",
    "C70_bound",
    "C70_spellings",
    "C70_atoi",
    "C70_setting"
   ],
   "note": "On the machine of C20, extended by the goroutines that an early return of Parallel leaves behind and by a count of those started; the same simplifications. The operations' theorems are for any limit; C70_gauge, C70_off, C70_default, C70_cores and C70_bound say which limit gauge.go computes. At values of FROZEN_CONCURRENCY within 63 of the least int the subtraction in NewGauge wraps around (example C70_gauge_wrap): a request for the most parallelism gives none."
  },
  {
   "property": "C71",
   "status": "partial",
   "theorems": [
    "C71_union_partial",
    "C71_symmetricDifference_partial",
    "C71_intersection",
    "C71_difference",
    "C71_where",
    "C71_equal",
    "C71_isSubsetOf",
    "C71_reduce",
    "C71_merge_partial",
    "C71_update_partial",
    "C71_mapEqual",
    "C71_union_races",
    "C71_union_refuted"
   ],
   "note": "Refuted for Union, and so for Merge, Update and SymmetricDifference, which also go through branch.Combine (C71_union_refuted, C71_union_races): SetNonNilChild updates the mask of the result from several goroutines (packer.go:39), and Flip tests and sets the field flipped from several goroutines (nodeArgs.go:41-49). C71_union_races says for which operands the first happens under every limit that starts goroutines at all. C71_union_partial, C71_merge_partial, C71_update_partial and C71_symmetricDifference_partial: these are the only races, none is for a child of the result, and there is none if no goroutines are started; that they do not change the result, memory being sequentially consistent, is C20. The other operations are free of races without restriction."
  },
  {
   "property": "C72",
   "status": "partial",
   "theorems": [
    "C72_fastIsEmpty_same",
    "C72_fastCount_same",
    "C72_fastHas_same",
    "C72_fastCountUpTo_same",
    "C72_fastIsEmpty",
    "C72_fastCount",
    "C72_fastCountUpTo_partial",
    "C72_fastCountUpTo_iterated",
    "C72_fastHas_partial",
    "C72_fastHas_known_partial",
    "C72_fastHas_flat_partial",
    "C72_fastIsEmpty_functions",
    "C72_fastCount_functions",
    "C72_fastHas_functions",
    "C72_fastCountUpTo_functions_partial",
    "C72_fastIsEmpty_run",
    "C72_fastCount_run",
    "C72_fastCountUpTo_run_partial",
    "C72_fastHas_run_partial",
    "C72_fastHas_refuted",
    "C72_fastCountUpTo_refuted"
   ],
   "note": "Refuted for FastHas (C72_fastHas_refuted): for a union or a difference whose first operand cannot answer it asks that operand a second time (set_union.go:34-39, set_diff.go:24-29), so Where followed by n calls of With makes a set whose FastHas makes 2^n calls and then says ok=false. Refuted for FastCountUpTo (C72_fastCountUpTo_refuted): for a union one of whose operands is known to be empty it calls CountUpTo of the other (set_union.go:15-20), which iterates, calls predicates and may store memos. C72_fastHas_partial and C72_fastHas_run_partial bound the calls of FastHas in general, C72_fastHas_flat_partial and C72_fastHas_known_partial give the claimed bound for sets without nested unions and differences and for those whose first operands answer; C72_fastCountUpTo_partial, C72_fastCountUpTo_run_partial and C72_fastCountUpTo_functions_partial prove the claim where no operand of a union is known to be empty. FastIsEmpty and FastCount are as claimed, and FastHas writes nothing and calls no predicate or mapper. That the answers are right is C35 and C37. The counting methods of LazyCost.v are those of Lazy.v by the theorems C72_..._same."
  },
  {
   "property": "C73",
   "status": "partial",
   "theorems": [
    "C73_count_refuted",
    "C73_countUpTo_refuted",
    "C73_freeze_refuted",
    "C73_hash_refuted",
    "C73_equalSet_refuted",
    "C73_equal_refuted",
    "C73_isSubsetOf_refuted",
    "C73_has_refuted",
    "C73_isEmpty_refuted",
    "C73_again",
    "C73_source",
    "C73_range_partial",
    "C73_stays",
    "C73_used",
    "C73_built",
    "C73_derived_refuted"
   ],
   "note": "Refuted for every method but Range (C73_count_refuted, C73_countUpTo_refuted, C73_freeze_refuted, C73_hash_refuted, C73_equalSet_refuted, C73_equal_refuted, C73_isSubsetOf_refuted, C73_has_refuted, C73_isEmpty_refuted): memoSet passes the call on to its source expression (set_memo.go:62-86), which iterates over itself and not over the memoSet, so however often Count or Freeze is called, under any interleaving with other goroutines, the call does not store the frozen set, and the next call evaluates the source again (C73_again, C73_source); Freeze stores its result in a memoSet of its own, which is dropped (set_base.go:56-63). The arguments must not contain the receiver's memoSet, since EqualSet and IsSubsetOf of a frozen set range over their argument. C73_range_partial: iterating over the set to the end, without other goroutines, does memoise it; with others that is C39. C73_stays, C73_used and C73_built are as claimed. Sets made from a memoSet before it is memoised do not refer to it at all (C73_derived_refuted), so they evaluate its source for themselves."
  },
  {
   "property": "C74",
   "status": "partial",
   "theorems": [
    "C74_where",
    "C74_map_partial",
    "C74_with",
    "C74_without",
    "C74_union",
    "C74_intersection",
    "C74_difference",
    "C74_symmetricDifference",
    "C74_powerset",
    "C74_map_memo_partial",
    "C74_map_refuted"
   ],
   "note": "Refuted for Map of a frozen set, and of a memoSet that holds one: set_frozen.go:81-83 maps all elements at once (C74_map_refuted: with mappers that give different results, the calls differ). C74_map_partial and C74_map_memo_partial: Map of other sets is as claimed, and so are the other operations without restriction. Steps are reads of memo pointers and allocations of memoSets; With and Without of a frozen set and the one-element set are single calls of frozen.Set, whose cost is C58."
  },
  {
   "property": "C75",
   "status": "proved",
   "theorems": [
    "C75_meaning",
    "C75_laws",
    "C75_only",
    "C75_identities",
    "C75_apart"
   ],
   "note": "The expressions of the theorems are any nesting of the operations, with any functions and keys in them. Update and Merge can panic for keys with the same hash (C19); C75_meaning allows for that, and C75_laws and C75_only are about runs that do not. C75_identities lists laws that hold for every key, C75_apart those for different keys; with C75_laws each of them is a law of maps. C65 has the laws of sets."
  },
  {
   "property": "C76",
   "status": "proved",
   "theorems": [
    "C76_elements",
    "C76_ordered",
    "C76_identity",
    "C76_entries_equal",
    "C76_entries",
    "C76_fromKeys",
    "C76_map_identity"
   ],
   "note": "NewMapFromGoMap takes a Go map, which holds no key twice and is listed in any order; C76_entries is about lists that may repeat entries, so it covers every order. The function given to NewMapFromKeys is a pure one that agrees with the map on its keys; a Go program would use MustGet."
  },
  {
   "property": "C77",
   "status": "proved",
   "theorems": [
    "C77_counts",
    "C77_table",
    "C77_only",
    "C77_pair",
    "C77_subset",
    "C77_keys",
    "C77_update"
   ],
   "note": "C77_counts: any linear inequality between the counts of set expressions follows from its truth table, which atMost0 decides (C77_table); C77_only: no other one holds. The theorems are about expressions that run to the end; Union and SymmetricDifference can panic for values with the same hash (C19). C77_pair, C77_subset and C77_update are instances."
  },
  {
   "property": "C78",
   "status": "partial",
   "theorems": [
    "C78_agree_partial",
    "C78_compare_partial",
    "C78_total_partial",
    "C78_unsigned",
    "C78_refuted"
   ],
   "note": "For unsigned types all programs agree (C78_unsigned). For signed types the property is false of the code: after With(-1) only the Set has -1 (C78_refuted, the fault of C30). C78_agree_partial, C78_compare_partial and C78_total_partial are about programs whose integers are non-negative or multiples of 64. The Set program can panic for integers with the same hash (C19) where the IntSet program does not; the agreement is about Set programs that run to the end."
  },
  {
   "property": "C79",
   "status": "proved",
   "theorems": [
    "C79_keys",
    "C79_where"
   ],
   "note": "The programs are any nesting of Update, Merge, Where, MapMap, Project, With and Without, with any functions in them. Where's predicate must look at keys only; for others C79_where says that the keys left are some of the keys. The panics of Update and Merge for keys with the same hash (C19) are part of the statement: they happen exactly when the Unions of the keys panic. The representatives kept for equal keys can differ (C68); Equal does not tell them apart."
  },
  {
   "property": "C80",
   "status": "proved",
   "theorems": [
    "C80_subset",
    "C80_equal",
    "C80_union",
    "C80_intersection",
    "C80_where",
    "C80_count",
    "C80_compose"
   ],
   "note": "About functions that take equal values to equal values (Takes); C09 covers the others. C80_union is about calls of Union that return (C19). C80_intersection: within in general, equal if the function takes unequal values to unequal values; C80_intersection_run shows a function for which they differ."
  },
  {
   "property": "C81",
   "status": "proved",
   "theorems": [
    "C81_union_same",
    "C81_intersection_same",
    "C81_one",
    "C81_two",
    "C81_union_nested",
    "C81_bounds",
    "C81_distribute",
    "C81_difference"
   ],
   "note": "About calls of Union that return: whether one panics for values with the same hash (C19) can depend on the grouping of the operands (C81_grouping_run). Intersection always returns for one operand or more (C15). Which of several equal elements is kept depends on the order (C68); Equal does not tell them apart."
  },
  {
   "property": "C82",
   "status": "proved",
   "theorems": [
    "C82_where",
    "C82_keys",
    "C82_count",
    "C82_union"
   ],
   "note": "The law on Union of the groups is about a call of Union that returns (C19, C81); SetGroupBy itself always returns (C12). The key function need not respect equality: it is applied to the elements the set holds."
  }
 ]
}