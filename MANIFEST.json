{
 "claims": [
  {
   "property": "C01",
   "status": "partial",
   "theorems": [
    "C01_refuted",
    "C01_refuted_empty",
    "C01_set_get",
    "C01_set_get_found"
   ],
   "note": "REFUTED as stated: C01_refuted (Set apple, Set app: Get(app) gives the value but found=false) and C01_refuted_empty. Positive part: C01_set_get gives for every reachable pattern-free store the value and the exact condition for found; C01_set_get_found: found=true whenever the key is not a proper prefix of a stored key."
  },
  {
   "property": "C02",
   "status": "partial",
   "theorems": [
    "C02_last_write_query",
    "C02_last_write_wins",
    "C02_refuted"
   ],
   "note": "REFUTED as stated: C02_refuted (Set \"a.\" makes Get(\"a\") return its value). Positive part: for every remove-free history the node under each key holds exactly the last value written; a query of a never-written key gives nil unless key+delimiter was written. Removal steps are covered by C10_remove_spec."
  },
  {
   "property": "C03",
   "status": "proved",
   "theorems": [
    "C03_set_frame",
    "C03_set_frame_key",
    "C03_write_frame"
   ],
   "note": "for every reachable store (patterns included): value, comment, description, tag, leaf flag, data flag, modified flag and reported key of every other key are unchanged."
  },
  {
   "property": "C04",
   "status": "proved",
   "theorems": [
    "C04_set_old"
   ],
   "note": "for every reachable store."
  },
  {
   "property": "C05",
   "status": "proved",
   "theorems": [
    "C05_data_iff_stored",
    "C05_data_step",
    "C05_walk_once"
   ],
   "note": "nodes visited by Walk are in bijection with the keys of the tree; nodes with data are exactly the keys written and not removed (C05_data_step gives the effect of each single call, Remove included)."
  },
  {
   "property": "C06",
   "status": "proved",
   "theorems": [
    "C06_no_panic",
    "C06_no_panic_history"
   ],
   "note": "on pattern-free stores, all modelled calls, all arguments, all views; lookups need one pass of the retriever block, any bound >= 1 gives the same result."
  },
  {
   "property": "C07",
   "status": "partial",
   "theorems": [
    "C07_bare_colon_calls",
    "C07_calls_converge",
    "C07_refuted"
   ],
   "note": "REFUTED: C07_refuted (routes /a/:id, /a/:name and /a/b: Get(/a/x/y) never returns); C07_bare_colon_calls says in general when a lookup runs forever. Positive part: every call returns unless a key k and the key k+':' are both nodes of the tree (C07_calls_converge)."
  },
  {
   "property": "C08",
   "status": "partial",
   "theorems": [
    "C08_has_after_set",
    "C08_has_iff",
    "C08_has_stored",
    "C08_refuted_ancestor",
    "C08_refuted_prefix"
   ],
   "note": "REFUTED as stated: C08_refuted_prefix, C08_refuted_ancestor. Positive part: exact characterisation of Has for every pattern-free store, and Has is true for everything written."
  },
  {
   "property": "C09",
   "status": "partial",
   "theorems": [
    "C09_haspart_iff",
    "C09_haspart_stored",
    "C09_refuted"
   ],
   "note": "REFUTED on the empty store: C09_refuted. Positive part: exact for ASCII keys on non-empty stores."
  },
  {
   "property": "C10",
   "status": "partial",
   "theorems": [
    "C10_refuted",
    "C10_remove_exact",
    "C10_remove_spec"
   ],
   "note": "REFUTED as stated: C10_refuted (Remove(app) removes apple). Positive part: the exact effect of Remove on every key (C10_remove_spec); the stated effect when no stored key continues the path with a non-delimiter."
  },
  {
   "property": "C11",
   "status": "partial",
   "theorems": [
    "C11_refuted",
    "C11_remove_truthful"
   ],
   "note": "REFUTED for the clause that a parent left without keys disappears: C11_refuted. Positive part: the returned flag agrees with Has before, and afterwards Has and Get do not find the path."
  },
  {
   "property": "C12",
   "status": "partial",
   "theorems": [
    "C12_key_ascii",
    "C12_key_leaf",
    "C12_refuted"
   ],
   "note": "REFUTED for branches of multi-byte keys: C12_refuted. Positive part: all nodes of ASCII stores, all leaves of valid UTF-8 stores."
  },
  {
   "property": "C13",
   "status": "partial",
   "theorems": [
    "C13_distinct_keys",
    "C13_refuted"
   ],
   "note": "REFUTED for invalid UTF-8: C13_refuted. Positive part: valid UTF-8 strings without blanks."
  },
  {
   "property": "C14",
   "status": "partial",
   "theorems": [
    "C14_refuted",
    "C14_setex_get"
   ],
   "note": "REFUTED as stated: C14_refuted. Positive part: SetEx stores under the very string (C14_setex_get); Set without blanks is C01_set_get."
  },
  {
   "property": "C15",
   "status": "proved",
   "theorems": [
    "C15_view_nested",
    "C15_view_path",
    "C15_view_prefix",
    "C15_view_step"
   ],
   "note": "every call through the view equals the call on the base handle with the joined path, for all histories and nesting."
  },
  {
   "property": "C16",
   "status": "partial",
   "theorems": [
    "C16_join_assoc",
    "C16_join_singleton",
    "C16_join_skip",
    "C16_join_spec",
    "C16_join_split_parts",
    "C16_refuted"
   ],
   "note": "REFUTED for delimiters outside one byte: C16_refuted. Positive part: C16_join_*; splitting back needs an ASCII delimiter."
  },
  {
   "property": "C17",
   "status": "partial",
   "theorems": [
    "C17_dup_fresh",
    "C17_dup_independent",
    "C17_dup_keys",
    "C17_dup_same",
    "C17_refuted"
   ],
   "note": "REFUTED for comment/description/tag: C17_refuted. Positive part: same keys, values (through the clone oracle) and flags; fresh nodes; writes through pointers of one tree never reach the other."
  },
  {
   "property": "C18",
   "status": "partial",
   "theorems": [
    "C18_refuted",
    "C18_setcomment_absent",
    "C18_setcomment_one",
    "C18_setcomment_present",
    "C18_settag_present"
   ],
   "note": "REFUTED as stated: C18_refuted. Positive part: exact effect when the path exists, no effect when nothing matches, never more than one key changed."
  },
  {
   "property": "C19",
   "status": "partial",
   "theorems": [
    "C19_refuted",
    "C19_setnode_attr"
   ],
   "note": "REFUTED for the tag: C19_refuted. Positive part: exact attributes after SetNode."
  },
  {
   "property": "C20",
   "status": "partial",
   "theorems": [
    "C20_refuted",
    "C20_setempty_attr"
   ],
   "note": "REFUTED for HasData: C20_refuted. Positive part: data and tag are nil, nothing else changes."
  },
  {
   "property": "C21",
   "status": "partial",
   "theorems": [
    "C21_refuted",
    "C21_update_attr",
    "C21_update_value"
   ],
   "note": "REFUTED when the callback does not store: C21_refuted. Positive part: the callback gets the old value once and the node afterwards is what the callback made of a node with nil data."
  },
  {
   "property": "C22",
   "status": "partial",
   "theorems": [
    "C22_refuted_none",
    "C22_refuted_twice",
    "C22_setex_calls"
   ],
   "note": "REFUTED: C22_refuted_none, C22_refuted_twice. Positive part: all calls get the path, old data and the node; exact condition for no call."
  },
  {
   "property": "C23",
   "status": "partial",
   "theorems": [
    "C23_param_found",
    "C23_refuted"
   ],
   "note": "REFUTED with a plain sibling sharing runes: C23_refuted. Positive part: found and bound whenever no stored key continues the prefix with the first rune of the segment; all prefixes, names and segments, beside any other routes with patterns that the path does not meet."
  },
  {
   "property": "C24",
   "status": "partial",
   "theorems": [
    "C24_param_routes_found",
    "C24_param_tail_found",
    "C24_refuted",
    "C24_refuted_many"
   ],
   "note": "REFUTED: C24_refuted, C24_refuted_many. Positive part: exact length condition under which a route with a tail, or one of several routes under a parameter, is found, beside any other routes with patterns that the path does not meet."
  },
  {
   "property": "C25",
   "status": "partial",
   "theorems": [
    "C25_refuted",
    "C25_wild_found"
   ],
   "note": "REFUTED with a plain sibling: C25_refuted. Positive part: found and bound whenever no stored key continues the prefix with the first rune of the rest, beside any other routes with patterns that the path does not meet."
  },
  {
   "property": "C26",
   "status": "partial",
   "theorems": [
    "C26_getex",
    "C26_refuted"
   ],
   "note": "REFUTED: C26_refuted (the callback never gets bindings). Positive part: the value and branch flag passed are those of Query."
  },
  {
   "property": "C27",
   "status": "partial",
   "theorems": [
    "C27_br_candidates",
    "C27_br_first",
    "C27_br_nearest",
    "C27_refuted_partial",
    "C27_refuted_top"
   ],
   "note": "REFUTED: C27_refuted_partial, C27_refuted_top. Positive part: which paths are tried and in which order, and that the first path with any match decides."
  },
  {
   "property": "C28",
   "status": "partial",
   "theorems": [
    "C28_absent",
    "C28_no_panic",
    "C28_path",
    "C28_present",
    "C28_refuted",
    "C28_refuted_prefix",
    "C28_root"
   ],
   "note": "REFUTED: C28_refuted (empty store panics), C28_refuted_prefix (a neighbour sharing a string prefix is included). Positive part: exact result for the root export and for every path, view and default list over stores of valid UTF-8, pattern-free keys (C28_root, C28_path, C28_present, C28_absent); no panic on a non-empty store (C28_no_panic)."
  },
  {
   "property": "C29",
   "status": "partial",
   "theorems": [
    "C29_prefix_partial",
    "C29_refuted",
    "C29_refuted_panic",
    "C29_root"
   ],
   "note": "REFUTED: C29_refuted (prefixed view: one byte too many is cut and outside keys appear), C29_refuted_panic. Positive part: C29_root gives the exact export without prefix or with the keep-prefix option, any filter; C29_prefix_partial states exactly what a prefixed view returns."
  },
  {
   "property": "C30",
   "status": "partial",
   "theorems": [
    "C30_any",
    "C30_keep",
    "C30_no_panic",
    "C30_one",
    "C30_refuted",
    "C30_refuted_panic",
    "C30_two"
   ],
   "note": "REFUTED: C30_refuted (levels lost for paths of two and three segments), C30_refuted_panic (empty store). Positive part: C30_keep for any path with keep-prefix; C30_one for one-segment paths; C30_two for two-segment paths with one level below; C30_no_panic on non-empty stores. C30_any: where every value lands for a path of any number of segments (n segments of the path cost n-1 of the key's; too few: an empty one in front), which is the relative place only in the cases of C30_one and C30_two."
  },
  {
   "property": "C31",
   "status": "partial",
   "theorems": [
    "C31_exact",
    "C31_lossless",
    "C31_order",
    "C31_refuted",
    "C31_refuted_lossless",
    "C31_section",
    "C31_to"
   ],
   "note": "REFUTED: C31_refuted (order dependence with map values), C31_refuted_lossless. Positive part: for values that are no maps the result is given exactly (C31_exact), does not depend on the iteration order (C31_order), and is lossless iff no key lies above another (C31_lossless)."
  },
  {
   "property": "C32",
   "status": "proved",
   "theorems": [
    "C32_absent",
    "C32_after_set",
    "C32_exact",
    "C32_present",
    "C32_slices"
   ],
   "note": "for any conversion function and default list; the numeric conversions of internal/cvt are a parameter"
  },
  {
   "property": "C33",
   "status": "partial",
   "theorems": [
    "C33_ascii",
    "C33_fits",
    "C33_kibi",
    "C33_kibi_bare",
    "C33_kilo",
    "C33_kilo_bare",
    "C33_refuted",
    "C33_refuted_hex",
    "C33_refuted_panic"
   ],
   "note": "REFUTED: C33_refuted (\"16EiB\" gives 0), C33_refuted_hex, C33_refuted_panic (a no-break space before the unit panics; ASCII texts never do: C33_ascii). Positive part: exact outcome for every decimal number, blanks, unit letter in any case and iB/B tail (C33_kibi, C33_kilo, C33_kibi_bare, C33_kilo_bare), and it is the true size whenever that fits 64 bits (C33_fits). Fractional numbers go through an unspecified ParseFloat."
  },
  {
   "property": "C34",
   "status": "partial",
   "theorems": [
    "C34_format",
    "C34_refuted",
    "C34_total"
   ],
   "note": "REFUTED as stated: C34_refuted (MinInt64 without fractions needs 33 bytes and panics). Positive part: C34_format gives the exact text for every duration and says a panic happens iff the text exceeds 32 bytes; C34_total: never with the fractional form, for d >= 0, or for d above -100000 days."
  },
  {
   "property": "C35",
   "status": "proved",
   "theorems": [
    "C35_injective",
    "C35_round_trip"
   ],
   "note": "for all 2^64 durations and both forms, whenever formatting returns"
  },
  {
   "property": "C36",
   "status": "partial",
   "theorems": [
    "C36_accepts_only",
    "C36_exact",
    "C36_must",
    "C36_must_only",
    "C36_refuted"
   ],
   "note": "REFUTED as stated: C36_refuted (two terms of 2^63 ns add up to 2^64, accepted as 0). Positive part: C36_exact: exact sum or rejection for all term lists that cannot hit that wrap-around, with fractions that are whole nanoseconds; C36_accepts_only: parsing always returns and accepts nothing but such texts (or a signed 0); C36_must, C36_must_only: the same for MustParseDuration, with zero for what is rejected. Finer fractions: C148, C149."
  },
  {
   "property": "C37",
   "status": "partial",
   "theorems": [
    "C37_change",
    "C37_new",
    "C37_refuted",
    "C37_refuted_again",
    "C37_remove",
    "C37_set"
   ],
   "note": "REFUTED: C37_refuted (a new key that names a branch is reported as changed), C37_refuted_again (a fork set to nil is new each time). Positive part: the exact calls of every Set and Remove for all handler lists, parents, keys and values (C37_set, C37_remove), and the two expected cases (C37_new, C37_change), over stores of pattern-free keys and views without upward lookup."
  },
  {
   "property": "C38",
   "status": "partial",
   "theorems": [
    "C38_merge_silent",
    "C38_refuted",
    "C38_refuted_merge",
    "C38_refuted_view",
    "C38_view_silent"
   ],
   "note": "REFUTED: C38_refuted (the flag is true outside loading, the opposite of its name), C38_refuted_merge, C38_refuted_view. Proved instead, for all inputs: Merge and Sets through a WithPrefix view call no handler (C38_merge_silent, C38_view_silent); Load from Read or ReadBytes calls none (C44_read, C44_bytes)."
  },
  {
   "property": "C39",
   "status": "proved",
   "theorems": [
    "C39_remove",
    "C39_sets"
   ],
   "note": "C39_sets: after any Sets through any handles the marked keys are exactly those marked before and those written outside loading. C39_remove: Remove keeps the marks of all keys that stay (pattern-free keys, no upward lookup)."
  },
  {
   "property": "C40",
   "status": "partial",
   "theorems": [
    "C40_merge",
    "C40_order",
    "C40_read",
    "C40_refuted"
   ],
   "note": "REFUTED: C40_refuted (the prefix of the store is ignored). Positive part: exact result of Merge for all nested maps, positions, slice flattening and conversions of keys (C40_merge), reading back (C40_read), independence of the iteration order at all levels (C40_order)."
  },
  {
   "property": "C41",
   "status": "partial",
   "theorems": [
    "C41_exact",
    "C41_flat",
    "C41_nested",
    "C41_refuted",
    "C41_refuted_nil",
    "C41_refuted_slice",
    "C41_right"
   ],
   "note": "REFUTED: C41_refuted (nested keys lose their path), C41_refuted_slice (prefix twice), C41_refuted_nil (panic). Positive part: flat maps (C41_flat), maps of scalars nested (C41_nested), the exact result for every map with maps, slices of maps and slices (C41_exact: the key each value is written to, the panic for nil), and for which values that key is the right one (C41_right)."
  },
  {
   "property": "C42",
   "status": "partial",
   "theorems": [
    "C42_done",
    "C42_entered",
    "C42_exclusive",
    "C42_load",
    "C42_no_deadlock",
    "C42_refuted_seen",
    "C42_refuted_stuck",
    "C42_refuted_views",
    "C42_released",
    "C42_skipped"
   ],
   "note": "Proved for any number of goroutines, any programs (nested calls, panics, recovers, views) and any schedule: at most one body per store handle, loading exactly while it runs, released at its end (C42_exclusive, C42_released, C42_done, C42_load). REFUTED beyond one handle: C42_refuted_views (two views of one tree load at once), C42_refuted_stuck (a view made while loading stays so), C42_refuted_seen (other goroutines' writes count as loading)."
  },
  {
   "property": "C43",
   "status": "partial",
   "theorems": [
    "C43_refuted",
    "C43_untouched_partial"
   ],
   "note": "REFUTED: C43_refuted (description, comment and tag of the provider are dropped). Proved: a load leaves the metadata of every key as it was (C43_untouched_partial)."
  },
  {
   "property": "C44",
   "status": "partial",
   "theorems": [
    "C44_bytes",
    "C44_codec_error",
    "C44_error",
    "C44_once_error",
    "C44_options",
    "C44_read",
    "C44_refuted",
    "C44_stream_partial"
   ],
   "note": "REFUTED: C44_refuted (a streaming provider without codec ends with the error of decoding no bytes). Positive part: Read (C44_read), ReadBytes with codec or JSON (C44_bytes), all error paths store nothing (C44_error, C44_once_error, C44_codec_error), exact outcome of streaming (C44_stream_partial)."
  },
  {
   "property": "C45",
   "status": "partial",
   "theorems": [
    "C45_nothing",
    "C45_refuted",
    "C45_save"
   ],
   "note": "REFUTED: C45_refuted (entries that were not changed are not written back). Positive part: exactly the modified exported keys are written (C45_save; store without prefix), nothing without codec or provider (C45_nothing)."
  },
  {
   "property": "C46",
   "status": "partial",
   "theorems": [
    "C46_branch",
    "C46_gone",
    "C46_inv",
    "C46_inv0",
    "C46_leaf",
    "C46_no_renewal",
    "C46_once",
    "C46_quiet",
    "C46_refuted_dup",
    "C46_refuted_prefix",
    "C46_refuted_split"
   ],
   "note": "REFUTED as stated: a Set between SetTTL and expiry that splits the armed leaf makes the expiry remove both keys (C46_refuted_split); a branch armed through a prefixed view is not removed (C46_refuted_prefix); a branch armed on a Dup is removed from the original (C46_refuted_dup). Positive part, for every schedule: a leaf whose key is neither removed nor split in between is cleared and nothing else changes (C46_leaf), a branch of an unprefixed handle is removed with exactly its keys (C46_branch), a leaf that left the tree expires without effect (C46_gone), each job acts at most once (C46_once), no other step changes a tree (C46_quiet)."
  },
  {
   "property": "C47",
   "status": "partial",
   "theorems": [
    "C47_close",
    "C47_late",
    "C47_refuted_race",
    "C47_refuted_select",
    "C47_refuted_store",
    "C47_refuted_view"
   ],
   "note": "REFUTED as stated: Close of the store does not close the trie (C47_refuted_store), a timer that rang before trieS.Close still acts after it (C47_refuted_race, C47_refuted_select), views have managers that Close of the parent leaves running (C47_refuted_view). Positive part: after trieS.Close, in every later schedule, the closed manager gets no new job and no job that was waiting for its timer acts (C47_close)."
  },
  {
   "property": "C48",
   "status": "partial",
   "theorems": [
    "C48_bad",
    "C48_lower",
    "C48_parse",
    "C48_refuted"
   ],
   "note": "REFUTED (C48_refuted): MarshalText writes upper-case names that UnmarshalText does not know. Positive part: the lower-case of each written name reads back as the op (C48_lower), exactly the listed names are read (C48_parse), anything else is reported and changes nothing (C48_bad)."
  },
  {
   "property": "C49",
   "status": "partial",
   "theorems": [
    "C49_deflate",
    "C49_deflate_map_refuted",
    "C49_deflate_order",
    "C49_deflate_refuted",
    "C49_normalize",
    "C49_normalize_collision_refuted",
    "C49_normalize_get",
    "C49_normalize_idem",
    "C49_normalize_maps_refuted",
    "C49_normalize_order",
    "C49_normalize_slice_refuted"
   ],
   "note": "REFUTED as stated: a key that leads through another key's value makes Deflate depend on the iteration order (C49_deflate_refuted, C49_deflate_map_refuted); Normalize leaves maps inside nested lists and lists of maps untouched (C49_normalize_slice_refuted, C49_normalize_maps_refuted); two keys that print the same depend on the order (C49_normalize_collision_refuted). Positive part: for keys of which none leads through another, Deflate's result by path and its independence of the order (C49_deflate, C49_deflate_order); Normalize by path, idempotence, no other map left outside these lists, independence of the order for keys that print differently. fmt.Sprintf(\"%v\") is a parameter."
  },
  {
   "property": "C50",
   "status": "partial",
   "theorems": [
    "C50_count_refuted",
    "C50_dotted",
    "C50_key_panics",
    "C50_next_panic_refuted",
    "C50_next_refuted",
    "C50_panic_refuted",
    "C50_parts",
    "C50_plain",
    "C50_prepare",
    "C50_strip_refuted",
    "C50_taken",
    "C50_underlines"
   ],
   "note": "REFUTED as stated: prepare panics if nothing is left of a name (C50_panic_refuted); Next is inverted: it never yields a key and panics at the end (C50_next_refuted, C50_next_panic_refuted); a strip prefix with capitals never matches the lowered name (C50_strip_refuted); two names with one key are counted twice (C50_count_refuted). Positive part: exactly which variables are taken, their keys, values and order, for any ToLower."
  },
  {
   "property": "C51",
   "status": "partial",
   "theorems": [
    "C51_entry",
    "C51_entry_any",
    "C51_fresh",
    "C51_kept",
    "C51_late_refuted",
    "C51_next",
    "C51_order",
    "C51_shared_refuted",
    "C51_values",
    "C51_values_refuted"
   ],
   "note": "REFUTED for mixed use: NextName and Next share the cursor (C51_shared_refuted), a key added during an iteration is not seen (C51_late_refuted), WithValues with an empty name shifts the pairs (C51_values_refuted). Positive part: after Reset, Next enumerates exactly the keys in ascending order, once, whatever came before (C51_next); entries (C51_entry), WithValues (C51_values), map order irrelevant (C51_order)."
  },
  {
   "property": "C52",
   "status": "partial",
   "theorems": [
    "C52_refuted",
    "C52_trie"
   ],
   "note": "REFUTED (C52_refuted): Store.RecursiveMode calls itself and never returns. Positive part: the mode of the trie is the one picked last by N/R/BR through any chain of views (C52_trie)."
  },
  {
   "property": "C53",
   "status": "partial",
   "theorems": [
    "C53_delimiter_irrelevant",
    "C53_refuted"
   ],
   "note": "REFUTED for the found flag of branches: C53_refuted. Positive part: value and branch flag do not depend on the delimiter."
  },
  {
   "property": "C54",
   "status": "partial",
   "theorems": [
    "C54_none",
    "C54_refuted",
    "C54_remove",
    "C54_set"
   ],
   "note": "REFUTED: C54_refuted (events of the file provider are not recognised). Positive part: exact effect of create, write and remove events and of the others (C54_set, C54_remove, C54_none)."
  },
  {
   "property": "C55",
   "status": "partial",
   "theorems": [
    "C55_close",
    "C55_prefix_partial",
    "C55_refuted"
   ],
   "note": "REFUTED: C55_refuted (loading with WithStorePrefix registers the watcher at a copy). Positive part: without a prefix Close calls all earlier closers and the new one exactly if data was loaded and watching is on (C55_close)."
  },
  {
   "property": "C56",
   "status": "proved",
   "theorems": [
    "C56_accessors"
   ],
   "note": ""
  },
  {
   "property": "C57",
   "status": "partial",
   "theorems": [
    "C57_keys_exact",
    "C57_order_independent",
    "C57_refuted"
   ],
   "note": "REFUTED for the found flag: C57_refuted. Positive part: keys and values of the tree do not depend on the order."
  },
  {
   "property": "C58",
   "status": "proved",
   "theorems": [
    "C58_agree_attrs",
    "C58_agree_getex",
    "C58_agree_has_search",
    "C58_agree_locate",
    "C58_agree_query_has"
   ],
   "note": ""
  },
  {
   "property": "C59",
   "status": "partial",
   "theorems": [
    "C59_param_more_segments",
    "C59_refuted"
   ],
   "note": "REFUTED: C59_refuted. Positive part: exact length condition for the false match."
  },
  {
   "property": "C60",
   "status": "partial",
   "theorems": [
    "C60_refuted",
    "C60_walk_nothing",
    "C60_walk_parent",
    "C60_walk_partial_all",
    "C60_walk_subtree"
   ],
   "note": "REFUTED as stated (C60_refuted): Walk(\"path.\") on a store whose only key below it is path.to visits the whole store, and a path without a trailing delimiter visits its parent's subtree. Positive part: exactly what is visited in every case where the lookup finds, partly finds or misses the path."
  },
  {
   "property": "C61",
   "status": "proved",
   "theorems": [
    "C61_inj",
    "C61_quote"
   ],
   "note": "For all byte strings; unquote is a separate specification."
  },
  {
   "property": "C62",
   "status": "proved",
   "theorems": [
    "C62_get",
    "C62_idem",
    "C62_keeps",
    "C62_repeated_refuted",
    "C62_single"
   ],
   "note": "By path and idempotence. C62_repeated_refuted shows the restriction to be needed: blocks inside repeated blocks stay wrapped."
  },
  {
   "property": "C63",
   "status": "partial",
   "theorems": [
    "C63_first",
    "C63_marshal_refuted",
    "C63_unmarshal_refuted"
   ],
   "note": "REFUTED: Marshal returns the bytes before anything was written to the buffer (C63_marshal_refuted); a second Unmarshal continues with the reader of the first (C63_unmarshal_refuted). Positive part: the first Unmarshal decodes its argument (C63_first)."
  },
  {
   "property": "C64",
   "status": "proved",
   "theorems": [
    "C64_collision_refuted",
    "C64_glue_refuted",
    "C64_inj",
    "C64_key",
    "C64_strip"
   ],
   "note": "C64_glue_refuted and C64_collision_refuted show what happens for an empty delimiter and for segments that contain the delimiter."
  },
  {
   "property": "C65",
   "status": "proved",
   "theorems": [
    "C65_event",
    "C65_first",
    "C65_follows",
    "C65_history",
    "C65_single"
   ],
   "note": "For all histories of one transaction per event (C65_history) and the first event after Read (C65_first); a single watched key: C65_single. Batches: see C70."
  },
  {
   "property": "C66",
   "status": "proved",
   "theorems": [
    "C66_once",
    "C66_op"
   ],
   "note": "Create and modify revisions as given by the client."
  },
  {
   "property": "C67",
   "status": "partial",
   "theorems": [
    "C67_changes",
    "C67_error_last",
    "C67_removed_refuted",
    "C67_swallow_refuted"
   ],
   "note": "REFUTED: an equal event within 5 ms is swallowed (C67_swallow_refuted), after a removal nothing is reported any more (C67_removed_refuted). Positive part: for events apart, each write or creation of the file is one callback (C67_changes); an error is the last callback (C67_error_last)."
  },
  {
   "property": "C68",
   "status": "proved",
   "theorems": [
    "C68_maps",
    "C68_plain"
   ],
   "note": "For keys of which none leads through another; the others: C49_deflate_refuted."
  },
  {
   "property": "C69",
   "status": "partial",
   "theorems": [
    "C69_prefix_refuted",
    "C69_prepare"
   ],
   "note": "REFUTED (C69_prefix_refuted): WithPrefix upper-cases the prefix, so no flag with a lower-case name is ever offered. Positive part: exactly what is offered for the prefix as stored (C69_prepare)."
  },
  {
   "property": "C70",
   "status": "partial",
   "theorems": [
    "C70_coalesced_refuted",
    "C70_gap_refuted",
    "C70_single_remove_refuted"
   ],
   "note": "REFUTED: of two transactions in one event only the last is seen (C70_coalesced_refuted), a removal between Read and the first event is not seen (C70_gap_refuted), the removal of a single watched key is not seen (C70_single_remove_refuted). What holds: C65."
  },
  {
   "property": "C71",
   "status": "proved",
   "theorems": [
    "C00_refinement"
   ],
   "note": "Refinement of the map of Spec.v, which mentions no nodes, fragments or searching; C00_refinement is the simulation for all histories."
  },
  {
   "property": "C72",
   "status": "proved",
   "theorems": [
    "C01_set_get",
    "C01_set_get_found",
    "C14_setex_get"
   ],
   "note": "The exact form of C01 and C14."
  },
  {
   "property": "C73",
   "status": "proved",
   "theorems": [
    "C02_last_write_query",
    "C02_last_write_wins",
    "C05_data_iff_stored",
    "C57_keys_exact",
    "C57_order_independent"
   ],
   "note": "The exact form of C02, C57."
  },
  {
   "property": "C74",
   "status": "proved",
   "theorems": [
    "C08_has_after_set",
    "C08_has_iff",
    "C08_has_stored",
    "C09_haspart_iff",
    "C09_haspart_stored"
   ],
   "note": "The exact form of C08, C09."
  },
  {
   "property": "C75",
   "status": "proved",
   "theorems": [
    "C10_remove_exact",
    "C10_remove_spec",
    "C11_remove_truthful"
   ],
   "note": "The exact form of C10, C11."
  },
  {
   "property": "C76",
   "status": "proved",
   "theorems": [
    "C12_key_ascii",
    "C12_key_leaf",
    "C13_distinct_keys"
   ],
   "note": "The exact form of C12, C13."
  },
  {
   "property": "C77",
   "status": "proved",
   "theorems": [
    "C16_join_assoc",
    "C16_join_singleton",
    "C16_join_skip",
    "C16_join_spec",
    "C16_join_split_parts"
   ],
   "note": "The exact form of C16."
  },
  {
   "property": "C78",
   "status": "proved",
   "theorems": [
    "C17_dup_fresh",
    "C17_dup_independent",
    "C17_dup_keys",
    "C17_dup_same"
   ],
   "note": "The exact form of C17 (descriptions, comments and tags are dropped, see C17_refuted)."
  },
  {
   "property": "C79",
   "status": "proved",
   "theorems": [
    "C18_setcomment_absent",
    "C18_setcomment_one",
    "C18_setcomment_present",
    "C18_settag_present",
    "C19_setnode_attr",
    "C20_setempty_attr",
    "C21_update_attr",
    "C21_update_value",
    "C22_setex_calls"
   ],
   "note": "The exact form of C18-C22."
  },
  {
   "property": "C80",
   "status": "proved",
   "theorems": [
    "C23_param_found",
    "C24_param_routes_found",
    "C24_param_tail_found",
    "C25_wild_found",
    "C59_param_more_segments"
   ],
   "note": "The exact form of C23-C25 and C59."
  },
  {
   "property": "C81",
   "status": "proved",
   "theorems": [
    "C07_bare_colon_calls",
    "C07_calls_converge"
   ],
   "note": "The exact form of C07."
  },
  {
   "property": "C82",
   "status": "proved",
   "theorems": [
    "C28_absent",
    "C28_no_panic",
    "C28_path",
    "C28_present",
    "C28_root",
    "C29_root",
    "C30_any",
    "C30_keep",
    "C30_no_panic",
    "C30_one",
    "C30_two",
    "C31_exact",
    "C31_lossless",
    "C31_order",
    "C31_section",
    "C31_to"
   ],
   "note": "The exact form of C28-C31 (C30_any for paths of any number of segments); prefixed views: C29_prefix_partial."
  },
  {
   "property": "C83",
   "status": "proved",
   "theorems": [
    "C33_ascii",
    "C33_fits",
    "C33_kibi",
    "C33_kibi_bare",
    "C33_kilo",
    "C33_kilo_bare"
   ],
   "note": "The exact form of C33."
  },
  {
   "property": "C84",
   "status": "proved",
   "theorems": [
    "C34_format",
    "C34_total",
    "C36_accepts_only",
    "C36_exact"
   ],
   "note": "The exact form of C34, C36; fractions finer than a nanosecond: C148."
  },
  {
   "property": "C85",
   "status": "proved",
   "theorems": [
    "C37_change",
    "C37_new",
    "C37_remove",
    "C37_set",
    "C38_merge_silent",
    "C38_view_silent"
   ],
   "note": "The exact form of C37, C38."
  },
  {
   "property": "C86",
   "status": "proved",
   "theorems": [
    "C40_merge",
    "C40_order",
    "C40_read",
    "C41_flat"
   ],
   "note": "The exact form of C40; flat maps in loading: C41_flat."
  },
  {
   "property": "C87",
   "status": "proved",
   "theorems": [
    "C42_done",
    "C42_entered",
    "C42_exclusive",
    "C42_load",
    "C42_no_deadlock",
    "C42_released",
    "C42_skipped"
   ],
   "note": "The exact form of C42."
  },
  {
   "property": "C88",
   "status": "proved",
   "theorems": [
    "C44_bytes",
    "C44_codec_error",
    "C44_error",
    "C44_once_error",
    "C44_read",
    "C45_nothing",
    "C45_save",
    "C54_none",
    "C54_remove",
    "C54_set",
    "C55_close"
   ],
   "note": "The exact form of C44, C45, C54, C55 (streaming: C44_stream_partial)."
  },
  {
   "property": "C89",
   "status": "proved",
   "theorems": [
    "C46_branch",
    "C46_gone",
    "C46_inv",
    "C46_inv0",
    "C46_leaf",
    "C46_no_renewal",
    "C46_once",
    "C46_quiet",
    "C47_close"
   ],
   "note": "The exact form of C46, C47."
  },
  {
   "property": "C90",
   "status": "proved",
   "theorems": [
    "C05_walk_once",
    "C60_walk_nothing",
    "C60_walk_parent",
    "C60_walk_partial_all",
    "C60_walk_subtree"
   ],
   "note": "The exact form of C60; Walk(\"\"): C05_walk_once."
  },
  {
   "property": "C91",
   "status": "proved",
   "theorems": [
    "C50_dotted",
    "C50_key_panics",
    "C50_parts",
    "C50_plain",
    "C50_prepare",
    "C50_taken",
    "C50_underlines"
   ],
   "note": "The exact form of C50."
  },
  {
   "property": "C92",
   "status": "proved",
   "theorems": [
    "C51_entry",
    "C51_kept",
    "C51_next",
    "C51_order",
    "C51_values"
   ],
   "note": "The exact form of C51."
  },
  {
   "property": "C93",
   "status": "proved",
   "theorems": [
    "C49_deflate",
    "C49_deflate_order",
    "C49_normalize",
    "C49_normalize_get",
    "C49_normalize_idem",
    "C49_normalize_order"
   ],
   "note": "The exact form of C49."
  },
  {
   "property": "C94",
   "status": "proved",
   "theorems": [
    "C94_history",
    "C94_last_op",
    "C94_read"
   ],
   "note": "Refinement of the tree to an abstract map over histories with removals; keys without pattern characters."
  },
  {
   "property": "C95",
   "status": "partial",
   "theorems": [
    "C95_consul_prefix_refuted",
    "C95_etcd_prefix_refuted"
   ],
   "note": "REFUTED: deleting a/b also deletes a.bc from the store, for consul and etcd alike (removal is by prefix of characters). Positive part: C96 and C97, which are exact when no key begins with another."
  },
  {
   "property": "C96",
   "status": "proved",
   "theorems": [
    "C96_load_follow",
    "C96_read",
    "C96_step"
   ],
   "note": "Composition of Read, Load, the event logic of the provider and applyExternalChanges."
  },
  {
   "property": "C97",
   "status": "proved",
   "theorems": [
    "C97_history",
    "C97_load_follow",
    "C97_read"
   ],
   "note": "Composition of Read, Load, the event logic of the provider and applyExternalChanges."
  },
  {
   "property": "C98",
   "status": "proved",
   "theorems": [
    "C98_env",
    "C98_named"
   ],
   "note": "Composition of the env provider with Load."
  },
  {
   "property": "C99",
   "status": "partial",
   "theorems": [
    "C99_missing",
    "C99_missing_refuted",
    "C99_one"
   ],
   "note": "REFUTED: C99_missing_refuted: for a missing key the client gives a nil pair without an error and Read dereferences it; C99_missing: it does so for every missing key. Positive part: C99_one, a present key is returned."
  },
  {
   "property": "C100",
   "status": "partial",
   "theorems": [
    "C100_above_refuted",
    "C100_emptied_refuted",
    "C100_errors",
    "C100_segment_refuted",
    "C100_store_refuted"
   ],
   "note": "REFUTED: storeS.SaveAs writes nothing and returns nil; Loader.SaveAs loses a.b beside a, turns a..b into a.b and writes nothing for an emptied store. Positive part: errors of codec and provider are returned (C100_errors), and the round trip C101."
  },
  {
   "property": "C101",
   "status": "proved",
   "theorems": [
    "C101_codec",
    "C101_roundtrip"
   ],
   "note": "The codec is a parameter with the hypothesis keeps; C101_codec shows that such a codec exists."
  },
  {
   "property": "C102",
   "status": "partial",
   "theorems": [
    "C102_refuted"
   ],
   "note": "REFUTED: GetInt8 and GetUint8 of 300 answer 44 and no error. Positive part: C103."
  },
  {
   "property": "C103",
   "status": "proved",
   "theorems": [
    "C103_signed",
    "C103_unsigned"
   ],
   "note": "The exact form of C102; converter.Int and converter.Uint of evendeep are parameters."
  },
  {
   "property": "C104",
   "status": "partial",
   "theorems": [
    "C104_refuted"
   ],
   "note": "REFUTED: a text that is no size gives 0 without an error and the default is not used. Positive part: C105."
  },
  {
   "property": "C105",
   "status": "proved",
   "theorems": [
    "C105_absent",
    "C105_exact",
    "C105_kibi",
    "C105_kilo",
    "C105_must",
    "C105_present"
   ],
   "note": "The exact form of C104; C105_kibi and C105_kilo: what a stored size gives, as the number times a power of 1024 or 1000. FromKibiBytes and FromKiloBytes for other texts are given by C83 and C210."
  },
  {
   "property": "C106",
   "status": "proved",
   "theorems": [
    "C106_added",
    "C106_first",
    "C106_must"
   ],
   "note": "time.Parse is a parameter."
  },
  {
   "property": "C107",
   "status": "partial",
   "theorems": [
    "C107_refuted"
   ],
   "note": "REFUTED: Save writes only the modified keys over the whole file, so keys that were loaded and not changed are gone. Positive part: C108."
  },
  {
   "property": "C108",
   "status": "proved",
   "theorems": [
    "C108_disabled",
    "C108_missing",
    "C108_refused",
    "C108_save",
    "C108_saveas",
    "C108_saveas_refused",
    "C108_unencodable"
   ],
   "note": "The disk is a map from names to contents; the codec is any one that keeps nested maps (one is constructed)."
  },
  {
   "property": "C109",
   "status": "partial",
   "theorems": [
    "C109_refuted",
    "C109_refuted_dropped",
    "C109_refuted_panic"
   ],
   "note": "REFUTED: a map[any]any is written as null without an error, nil elements of lists are dropped, a list of two kinds panics. Positive part: C110."
  },
  {
   "property": "C110",
   "status": "proved",
   "theorems": [
    "C110_keys",
    "C110_list",
    "C110_null",
    "C110_written"
   ],
   "note": "Up to go-cty and hclwrite, which are the constructors of the model; lists of scalars for the list theorem."
  },
  {
   "property": "C111",
   "status": "partial",
   "theorems": [
    "C111_refuted"
   ],
   "note": "REFUTED: {a: [1, 2]} becomes a with the single entry \"\" = 2. Positive part: C112."
  },
  {
   "property": "C112",
   "status": "proved",
   "theorems": [
    "C112_array",
    "C112_decoded"
   ],
   "note": "From the parsed hjson.Node tree on."
  },
  {
   "property": "C113",
   "status": "partial",
   "theorems": [
    "C113_refuted",
    "C113_refuted_wrong"
   ],
   "note": "REFUTED: data at the empty key is in no line of the dump; the branch 日 of 日本 and 日月 is shown with a garbled key and the mark WRONG. Positive part: C114."
  },
  {
   "property": "C114",
   "status": "proved",
   "theorems": [
    "C114_ascii",
    "C114_column",
    "C114_leaf",
    "C114_lines",
    "C114_right"
   ],
   "note": "Colours, fmt.Sprint and %q are parameters."
  },
  {
   "property": "C115",
   "status": "partial",
   "theorems": [
    "C115_refuted",
    "C115_refuted_prefix",
    "C115_refuted_trie"
   ],
   "note": "REFUTED: the delimiter is written raw (backslash), strconv.Quote writes \\a for BEL, and MarshalJSON of a trie lacks the braces of an object, so it never is JSON. Positive part: C116."
  },
  {
   "property": "C116",
   "status": "proved",
   "theorems": [
    "C116_ascii",
    "C116_ascii_iff",
    "C116_json"
   ],
   "note": "The reader is an independent one for objects and strings; unicode.IsPrint is a parameter outside ASCII."
  },
  {
   "property": "C117",
   "status": "proved",
   "theorems": [
    "C117_apart",
    "C117_attr",
    "C117_comment",
    "C117_data",
    "C117_dup",
    "C117_empty",
    "C117_new",
    "C117_own",
    "C117_remove",
    "C117_set",
    "C117_sets",
    "C117_tag",
    "C117_walk"
   ],
   "note": ""
  },
  {
   "property": "C118",
   "status": "partial",
   "theorems": [
    "C118_refuted"
   ],
   "note": "REFUTED (C118_refuted): with keys a, b, c the callback removes a when it sees a; remove shifts the children in place under the running loop, so b is never visited and c is visited twice.  Positive part: C119 (Sets instead of removals)."
  },
  {
   "property": "C119",
   "status": "proved",
   "theorems": [
    "C119_any",
    "C119_walk"
   ],
   "note": ""
  },
  {
   "property": "C120",
   "status": "partial",
   "theorems": [
    "C120_refuted"
   ],
   "note": "REFUTED (C120_refuted): both goroutines read the children of the root, both append, the second assignment drops the key of the first; nothing locks the tree.  Positive part: C121 (keys that exist)."
  },
  {
   "property": "C121",
   "status": "proved",
   "theorems": [
    "C121_ends",
    "C121_overwrite"
   ],
   "note": "Under sequential consistency with atomic access to each field; Go promises neither for unsynchronised programs, and a value of an interface type has two words. C121_ends: under every fair schedule everyone returns."
  },
  {
   "property": "C122",
   "status": "proved",
   "theorems": [
    "C122_arms",
    "C122_expires",
    "C122_served",
    "C122_served0"
   ],
   "note": ""
  },
  {
   "property": "C123",
   "status": "partial",
   "theorems": [
    "C123_refuted_block",
    "C123_refuted_nil",
    "C123_refuted_view"
   ],
   "note": "REFUTED (C123_refuted_nil, C123_refuted_view, C123_refuted_block): the flag is set before s.ttls, so a second SetTTL or a WithPrefix in between dereferences nil; a Close between the test of the flag and the send on the unbuffered channel leaves SetTTL blocked for ever.  Positive part: C124."
  },
  {
   "property": "C124",
   "status": "proved",
   "theorems": [
    "C124_alive",
    "C124_steady"
   ],
   "note": "Under sequential consistency; s.ttls is written without synchronisation."
  },
  {
   "property": "C125",
   "status": "partial",
   "theorems": [
    "C125_refuted_late",
    "C125_refuted_twice"
   ],
   "note": "REFUTED (C125_refuted_late, C125_refuted_twice): the lock is made by the first SetTTL without synchronisation, so a write under way goes on without it while another enters with it; two SetTTLs at once make two locks and whoever locked the first unlocks the second, a fatal error.  Positive part: C127."
  },
  {
   "property": "C126",
   "status": "partial",
   "theorems": [
    "C126_refuted"
   ],
   "note": "REFUTED (C126_refuted): dumpR calls Data inside its own read lock; a writer (Get takes the write lock, too) that arrives in between blocks the second RLock and waits for the first: both block for ever.  Positive part: C127_goes_on without writers."
  },
  {
   "property": "C127",
   "status": "proved",
   "theorems": [
    "C127_excludes",
    "C127_finishes",
    "C127_goes_on"
   ],
   "note": "Under sequential consistency; the body of a section is one step."
  },
  {
   "property": "C128",
   "status": "proved",
   "theorems": [
    "C128_query",
    "C128_search"
   ],
   "note": ""
  },
  {
   "property": "C129",
   "status": "partial",
   "theorems": [
    "C129_before_after",
    "C129_refuted_miss",
    "C129_refuted_nil",
    "C129_refuted_panic"
   ],
   "note": "REFUTED (C129_refuted_miss, C129_refuted_panic, C129_refuted_nil): while Set of apricot splits the node of apple, Get of apple may report that there is no such key, index a path that has just been cut (a panic), or report the key with the value nil.  Positive part: C130 (keys that exist)."
  },
  {
   "property": "C130",
   "status": "proved",
   "theorems": [
    "C130_any",
    "C130_ends",
    "C130_key"
   ],
   "note": "Under sequential consistency with atomic access to each field.  C130_key: trees without patterns, by key; C130_any: any tree and search.  A node that was a mere branch may also show the value it had before (nil in every store built by the API). C130_ends: under every fair schedule everyone returns."
  },
  {
   "property": "C131",
   "status": "proved",
   "theorems": [
    "C131_remove"
   ],
   "note": "Under the model of append and slices of Heap.v; the elements that are shifted are read before they are written (memmove)."
  },
  {
   "property": "C132",
   "status": "partial",
   "theorems": [
    "C132_refuted_miss",
    "C132_refuted_value"
   ],
   "note": "REFUTED (C132_refuted_miss, C132_refuted_value): while a is removed the loop over the children steps over b, which nobody removes, and Get of b reports that there is no such key; while apple is removed, Get of apple may give the value of app, because the number of children is tested before the loop reads them again.  Positive part: C133."
  },
  {
   "property": "C133",
   "status": "proved",
   "theorems": [
    "C133_ends",
    "C133_readers"
   ],
   "note": "Under sequential consistency with atomic access to each field; handles without the upward mode. C133_ends: under every fair schedule everyone returns (removers may panic, C134)."
  },
  {
   "property": "C134",
   "status": "partial",
   "theorems": [
    "C134_refuted_lost",
    "C134_refuted_panic",
    "C134_refuted_set",
    "C134_refuted_shorter",
    "C134_refuted_wrong"
   ],
   "note": "REFUTED (C134_refuted_shorter, C134_refuted_panic, C134_refuted_lost, C134_refuted_wrong, C134_refuted_set): apple removed by two goroutines may take app with it; a removal may panic (slice bounds); of a and c removed at the same time c may stay though both calls report success; of a and b removed b may stay and c, which nobody removes, go; a key set while another is removed may be lost.  Positive part: C133 (every entry left is an entry of the first tree)."
  },
  {
   "property": "C135",
   "status": "proved",
   "theorems": [
    "C135_alone",
    "C135_any",
    "C135_ends",
    "C135_keys"
   ],
   "note": "C135_alone: Walk alone; C135_any: beside overwriting goroutines, any tree and path; C135_keys: the whole tree in terms of keys. C135_ends: under every fair schedule everyone returns."
  },
  {
   "property": "C136",
   "status": "partial",
   "theorems": [
    "C136_before_after",
    "C136_refuted_nil",
    "C136_refuted_phantom",
    "C136_refuted_twice"
   ],
   "note": "REFUTED: C136_refuted_twice (a key visited twice), C136_refuted_phantom (a key that never exists visited with the value of another, which is missed), C136_refuted_nil (a key visited without its value). Positive part: C135 (overwriting only), C119 (keys set by the callback itself)."
  },
  {
   "property": "C137",
   "status": "partial",
   "theorems": [
    "C137_before_after",
    "C137_refuted_skips"
   ],
   "note": "REFUTED: C137_refuted_skips (a key nobody removes is missed, another visited twice). Positive part: C138."
  },
  {
   "property": "C138",
   "status": "proved",
   "theorems": [
    "C138_ends",
    "C138_removes"
   ],
   "note": "C138_removes; trees reached by plain keys, without the mode that climbs. C138_ends: under every fair schedule everyone returns (removers may panic, C134)."
  },
  {
   "property": "C139",
   "status": "proved",
   "theorems": [
    "C139_radix",
    "C139_store"
   ],
   "note": "C139_radix, C139_store. sync.Pool by its contract; a user function of UsePool that keeps the buffer is outside."
  },
  {
   "property": "C140",
   "status": "proved",
   "theorems": [
    "C140_contexts"
   ],
   "note": "C140_contexts."
  },
  {
   "property": "C141",
   "status": "proved",
   "theorems": [
    "C141_bits",
    "C141_linearizable"
   ],
   "note": "C141_linearizable is under sequential consistency with atomic access to each field (Go promises less to racy programs).  The specification (atomic) is the usual one: call, effect, reply as separate events of a sequential tree.  The old value that Set returns is ignored (see C142); searches in trees without patterns.  C141_bits: in trees made by calls a node without the bit for data holds nil, on which the argument rests.  A key with a lifetime has a lock, which Get takes around its last read; that only removes interleavings.  What is not covered because it is false: C142 (old values), C144 (new keys), C145 (SetComment), C146 and C147 (Update)."
  },
  {
   "property": "C142",
   "status": "partial",
   "theorems": [
    "C142_refuted"
   ],
   "note": "REFUTED (C142_refuted): two SetEx of one existing key may both report the value that was there before; no order of the two explains that.  Positive part: C141 (without the reported values), all proved."
  },
  {
   "property": "C143",
   "status": "proved",
   "theorems": [
    "C143_wait_free"
   ],
   "note": "C143_wait_free.  Nodes have no lock before SetTTL makes one (radix/trie.go:132-135), and lockFor of a node without one just runs its function; with locks a Get that stops inside keeps other Gets of the key out (Locks.v, C127)."
  },
  {
   "property": "C144",
   "status": "partial",
   "theorems": [
    "C144_refuted"
   ],
   "note": "REFUTED (C144_refuted): apple is there all the time, yet Get of apple beside Set of apricot replies that there is no such key; no order explains that.  Positive part: C141 (keys that exist)."
  },
  {
   "property": "C145",
   "status": "partial",
   "theorems": [
    "C145_refuted"
   ],
   "note": "REFUTED (C145_refuted): of two concurrent SetComment of one key the description of one stays beside the comment of the other; no order of the calls explains what GetDesc and GetComment reply.  Positive part: C141 (SetTag, which writes one field, is linearizable)."
  },
  {
   "property": "C146",
   "status": "partial",
   "theorems": [
    "C146_refuted"
   ],
   "note": "REFUTED (C146_refuted): Update first stores nil and keeps the old value, then calls back; a second Update in between gets nil as old value, and its effect or that of the first is lost.  The calls of SetData, which take the lock of the node if it has one, do not overlap in the witness.  Positive part: C141 and, for one goroutine, C21."
  },
  {
   "property": "C147",
   "status": "partial",
   "theorems": [
    "C147_refuted"
   ],
   "note": "REFUTED (C147_refuted): Update stores nil before it calls back, Get in between replies nil although the key has a value before and after.  Positive part: C141 (Set of a key that exists)."
  },
  {
   "property": "C148",
   "status": "proved",
   "theorems": [
    "C148_error",
    "C148_terms"
   ],
   "note": "C148_terms for fractions of any number of digits (including those beyond the 18 or 19 the code keeps, and scales that overflow to infinity): bit-level error bounds for the binary64 conversion, quotient and product; C148_error: at most one nanosecond per term. C148_case reaches the bound in both directions."
  },
  {
   "property": "C149",
   "status": "partial",
   "theorems": [
    "C149_refuted"
   ],
   "note": "REFUTED (C149_refuted): 0.500us is 500 ns, 0.50000000000000us (14 digits) is 499 ns, because 1000/1e14 is rounded down. Positive part: C148 (the difference is at most 2 ns), C36_exact (no difference while the unit is a multiple of the last place)."
  },
  {
   "property": "C150",
   "status": "proved",
   "theorems": [
    "C150_copies",
    "C150_ends",
    "C150_keys",
    "C150_unborn"
   ],
   "note": "C150_copies (nodes) and C150_keys (keys). Proof: a logic of programs that own what they allocate; the memory of all goroutines is well-formed at all times. Hypothesis unborn (arrays not yet allocated are empty) holds of every memory reached from the new one: C150_unborn. C150_ends: under every fair schedule everyone returns."
  },
  {
   "property": "C151",
   "status": "partial",
   "theorems": [
    "C151_refuted"
   ],
   "note": "REFUTED (C151_refuted): one goroutine sets a, then b; the copy has the new b and the old a, which the tree never had. Positive part: C150 (every single value was there at some time)."
  },
  {
   "property": "C152",
   "status": "partial",
   "theorems": [
    "C152_before_after",
    "C152_refuted_nil",
    "C152_refuted_phantom",
    "C152_refuted_stays",
    "C152_refuted_twice"
   ],
   "note": "REFUTED: beside the Set of apricot the copy has apple without its value (C152_refuted_nil), or the non-key ap with the value of apple and no apple (C152_refuted_phantom); beside the Remove of a the copy lacks b and has c twice (C152_refuted_twice), and in that copy c survives a Remove that reports success (C152_refuted_stays). Positive part: C150 (values are overwritten only), C152_before_after."
  },
  {
   "property": "C153",
   "status": "proved",
   "theorems": [
    "C153_ends",
    "C153_keys",
    "C153_sections"
   ],
   "note": "C153_sections (tree up to addresses; Permutation: any order), C153_keys (such trees answer alike), C153_ends (fair schedules end). Proof: ownership of the nodes and arrays below the own node and of all that is allocated; other goroutines read at most the path of the own node, which stays. The sequential side: disjoint sub-trees are replaced independently of one another."
  },
  {
   "property": "C154",
   "status": "partial",
   "theorems": [
    "C154_refuted"
   ],
   "note": "REFUTED (C154_refuted): the store has server.port only; one goroutine sets client.id, the other db.url; both return and db.url is lost, since both append to the children of the root. Positive part: C153 (the sections exist before the goroutines start)."
  },
  {
   "property": "C155",
   "status": "proved",
   "theorems": [
    "C155_ends",
    "C155_exports",
    "C155_readers",
    "C155_unfiltered"
   ],
   "note": "C155_exports, C155_unfiltered (one store if there is no filter), C155_readers (nobody writes: the exact answers), C155_ends. [searched]: the search for the path ends within the fuel, as it does for all large enough fuel (C07). With C28 - C30 this gives the contents by keys."
  },
  {
   "property": "C156",
   "status": "partial",
   "theorems": [
    "C156_refuted"
   ],
   "note": "REFUTED (C156_refuted): one goroutine sets a, then b; the map has the new b and the old a. Positive part: C155."
  },
  {
   "property": "C157",
   "status": "partial",
   "theorems": [
    "C157_refuted"
   ],
   "note": "REFUTED (C157_refuted): the filter looks at the node, then node.Data() is read again; the value may be overwritten in between. Positive part: C155; alone: C29, C30."
  },
  {
   "property": "C158",
   "status": "partial",
   "theorems": [
    "C158_refuted_missing",
    "C158_refuted_phantom"
   ],
   "note": "REFUTED (C158_refuted_phantom, C158_refuted_missing): while apricot is set, the map has ap and not apple; while a is removed, b is not in the map. Positive part: C155 for overwriting."
  },
  {
   "property": "C159",
   "status": "partial",
   "theorems": [
    "C159_refuted"
   ],
   "note": "REFUTED (C159_refuted): the position of the loader is not used by Load; WithStorePrefix is what moves the data. What a position does instead: C163."
  },
  {
   "property": "C160",
   "status": "partial",
   "theorems": [
    "C160_refuted",
    "C160_refuted_position"
   ],
   "note": "REFUTED (C160_refuted: a second Load without a codec decodes with that of the first, not with json; C160_refuted_position: consul reads below the position of the first). What stays: C164."
  },
  {
   "property": "C161",
   "status": "partial",
   "theorems": [
    "C161_names",
    "C161_refuted",
    "C161_round_trip"
   ],
   "note": "REFUTED for env and flags (C161_refuted; C161_names: GetPosition gives the filter for names, WithPosition sets the prefix of keys, after the keys were made). Positive part: C161_round_trip for all others."
  },
  {
   "property": "C162",
   "status": "partial",
   "theorems": [
    "C162_agrees",
    "C162_agrees_paths",
    "C162_delimiter",
    "C162_getters",
    "C162_locate",
    "C162_meta",
    "C162_mode",
    "C162_prefix",
    "C162_refuted",
    "C162_set",
    "C162_view",
    "C162_walk"
   ],
   "note": "REFUTED (C162_refuted, C162_getters, C162_meta): the typed getters ignore the defaults and give no error, GetDesc, GetTag and GetComment give no error; Has of the empty path, Locate, Walk and SetPrefix with empty parts differ. Positive part: C162_agrees, C162_agrees_paths, C162_prefix."
  },
  {
   "property": "C163",
   "status": "proved",
   "theorems": [
    "C163_consul",
    "C163_consul_panic",
    "C163_down",
    "C163_etcd",
    "C163_file",
    "C163_inert",
    "C163_load"
   ],
   "note": "C163_load: Load with all options is the Load of C44 for the provider as settled; C163_inert, C163_consul, C163_etcd, C163_consul_panic. The remote side: consul's List and etcd's Get with a prefix give the pairs whose key begins with it. C163_down: a source that cannot be read gives its error and nothing changes; C163_file: a file is decoded by the codec of the options, else of the provider, else json."
  },
  {
   "property": "C164",
   "status": "proved",
   "theorems": [
    "C164_again",
    "C164_left"
   ],
   "note": "C164_left, C164_again."
  },
  {
   "property": "C165",
   "status": "proved",
   "theorems": [
    "C165_new",
    "C165_order",
    "C165_says",
    "C165_set"
   ],
   "note": "C165_new, C165_says, C165_order, C165_set."
  },
  {
   "property": "C166",
   "status": "partial",
   "theorems": [
    "C166_refuted",
    "C166_same",
    "C166_silent",
    "C166_stuck"
   ],
   "note": "REFUTED (C166_refuted): the copy has no handlers. Positive part: all other settings are the same (C166_same); nothing done through a copy ever calls a handler or closes a watcher (C166_silent); the loading state is copied too, a copy made while the original loads never loads anything (C166_stuck)."
  },
  {
   "property": "C167",
   "status": "proved",
   "theorems": [
    "C167_builtin",
    "C167_codec"
   ],
   "note": "C167_codec, C167_builtin. ExtCodecMap hands out the map itself, so writes to it are Register and Deregister."
  },
  {
   "property": "C168",
   "status": "partial",
   "theorems": [
    "C168_all",
    "C168_found",
    "C168_refuted"
   ],
   "note": "REFUTED (C168_refuted, and for every name with an extension C168_all): filepath.Ext includes the dot, the list has none. Positive part: without the dot every listed extension is found in every name (C168_found)."
  },
  {
   "property": "C169",
   "status": "partial",
   "theorems": [
    "C169_prefix",
    "C169_refuted"
   ],
   "note": "REFUTED (C169_refuted): New sets STORE_VERSION, which a provider without prefix then offers. Positive part: a provider with a prefix that STORE_VERSION does not begin with is not affected (C169_prefix)."
  },
  {
   "property": "C170",
   "status": "partial",
   "theorems": [
    "C170_option",
    "C170_refuted",
    "C170_same"
   ],
   "note": "REFUTED (C170_refuted): the indented text is dropped; pretty codecs write what the others write (C170_same). Positive part: C170_option: the last option decides whether the codec is made pretty, and it is by default."
  },
  {
   "property": "C171",
   "status": "proved",
   "theorems": [
    "C171_remove",
    "C171_set"
   ],
   "note": "C171_set, C171_remove: the programs of single accesses, run alone, refine st_Set and st_Remove on the tree."
  },
  {
   "property": "C172",
   "status": "proved",
   "theorems": [
    "C172_ends",
    "C172_leaves",
    "C172_race"
   ],
   "note": "C172_race for any handles and trees; C172_leaves for keys that are leaves of a tree without patterns: exactly the change handlers are called; C172_ends: under fair schedules all return."
  },
  {
   "property": "C173",
   "status": "partial",
   "theorems": [
    "C173_refuted"
   ],
   "note": "REFUTED (C173_refuted): both goroutines take the key for new and call the on-new handlers. Positive part: C172 (keys that exist)."
  },
  {
   "property": "C174",
   "status": "partial",
   "theorems": [
    "C174_refuted"
   ],
   "note": "REFUTED (C174_refuted): both Removes of a report a, and b, the next child, is gone without a call of a handler. Positive part: C171_remove (alone)."
  },
  {
   "property": "C175",
   "status": "partial",
   "theorems": [
    "C175_refuted"
   ],
   "note": "REFUTED (C175_refuted): a Set within loading writes back a type without the mark. Positive part: C172_race (the mark is lost only where a loaded value is left; without loading never)."
  },
  {
   "property": "C176",
   "status": "proved",
   "theorems": [
    "C176_alone",
    "C176_ends",
    "C176_work"
   ],
   "note": "C176_work: nobody panics, replies and final tree; C176_ends: under fair schedules all return with these replies; C176_alone: on trees without patterns every such job has replies when it runs alone. The items also include Set followed by methods of the node that it gives, and RemoveEx followed by a read of the removed node's data. Searches with PathModeUp are excluded (they climb out of the section). The methods that a callback of Update calls are SetData, SetComment, SetTag, SetEmpty, SetModified, ToggleModified and ResetModified, in any number and order, depending on the old value. A key that is only looked up (or exported, C186) may end inside the fragment of the section's node, as server in server. does."
  },
  {
   "property": "C177",
   "status": "proved",
   "theorems": [
    "C177_alone",
    "C177_calls",
    "C177_ends"
   ],
   "note": "C177_calls: nobody panics, replies, calls of handlers, final tree with marks; C177_ends: under fair schedules all return with these; C177_alone: on trees without patterns such calls always have replies when run alone. Handlers are values (the calls made of them are recorded); a handler that itself calls the store is not part of this property. Searches with PathModeUp are excluded."
  },
  {
   "property": "C178",
   "status": "proved",
   "theorems": [
    "C178_any",
    "C178_refuted",
    "C178_rel"
   ],
   "note": "C178_any: exact place of every exported value; C178_rel: when it is the map relative to the path; C178_refuted: a handle with a prefix and one without give different maps for the same keys. Delimiters are ASCII (Join writes one byte)."
  },
  {
   "property": "C179",
   "status": "proved",
   "theorems": [
    "C179_bare",
    "C179_kibi",
    "C179_kilo",
    "C179_literal",
    "C179_only"
   ],
   "note": "C179_literal, C179_only: exactly the literals of Go (strconv.ParseUint is modelled from the Go library); C179_kibi, C179_kilo, C179_bare: what the size functions give. The misread literals are C33_refuted_hex."
  },
  {
   "property": "C180",
   "status": "partial",
   "theorems": [
    "C180_any",
    "C180_key",
    "C180_reduction",
    "C180_refuted",
    "C180_sets"
   ],
   "note": "REFUTED for Sets that change the type of a value: C180_refuted (for every way to put two words together Get returns the old type word with the new data word; C180_refuted_ex: a number nobody stored). Positive part: C180_reduction (split accesses behave as whole ones while the type words do not change), C180_any, C180_key, C180_sets: Gets and overwriting Sets of values of one type per key."
  },
  {
   "property": "C181",
   "status": "partial",
   "theorems": [
    "C181_memory",
    "C181_refuted",
    "C181_start"
   ],
   "note": "REFUTED when the words of a slice header are read one by one: C181_refuted (a Get is about to read past the end of the old array with the new length). Positive part: C181_memory, C181_start: with whole headers every access of every goroutine is inside its array and at a node or nil, for all calls that the model has programs for. Nil is the address 0; a new tree has its root there, so take a memory without a node at 0 to tell them apart."
  },
  {
   "property": "C182",
   "status": "partial",
   "theorems": [
    "C182_calls",
    "C182_closed",
    "C182_dead",
    "C182_delivered",
    "C182_one",
    "C182_refuted"
   ],
   "note": "REFUTED as stated: C182_refuted (a callback after Close; Close then Watch reports one change twice; after the end of the context, or the removal of the file, no later Watch reports anything; a Close before the goroutine runs is lost). Positive part: C182_calls, C182_delivered (each goroutine gives what file_loop of C67 gives for its messages), C182_one, C182_closed, and C182_dead in general."
  },
  {
   "property": "C183",
   "status": "partial",
   "theorems": [
    "C183_away",
    "C183_clean",
    "C183_file",
    "C183_inside",
    "C183_link",
    "C183_refuted"
   ],
   "note": "REFUTED for links: C183_refuted (a path that is not clean and names a link; a link to a link; a link made anew, after which the old target is still watched and the new one is not). Positive part: C183_inside and C183_away say exactly which entries are taken, C183_file that for an entry that is no link these are the right ones however the path is written, C183_link that a clean path through one link works as long as the link stays. filepath and fsnotify are modelled after their documentation; C183_clean is what is used of Clean."
  },
  {
   "property": "C184",
   "status": "partial",
   "theorems": [
    "C184_calls",
    "C184_closed",
    "C184_delivered",
    "C184_refuted",
    "C184_spins"
   ],
   "note": "REFUTED as stated: C184_refuted (a change between Watch and the goroutine's first step is never reported; after Close what was in the channel is still reported, and then the goroutine takes the zero response of the closed channel without end, C184_spins in general). Positive part: C184_calls (calls and channel together are exactly what came while the goroutine listened), C184_delivered, C184_closed. The client is modelled after its documentation."
  },
  {
   "property": "C185",
   "status": "partial",
   "theorems": [
    "C185_closed",
    "C185_lost",
    "C185_own",
    "C185_refuted"
   ],
   "note": "REFUTED as stated: C185_refuted (two calls of Watch before their goroutines run: the first callback is never called, the second is called twice; Close after two calls of Watch leaves the first plan running). Positive part: C185_own (if each goroutine starts before the next Watch), C185_closed (the callback given last is not called after Close), C185_lost. The client is modelled after its documentation."
  },
  {
   "property": "C186",
   "status": "proved",
   "theorems": [
    "C186_export",
    "C186_keys"
   ],
   "note": "C186_export: the export is that of the goroutine's own earlier calls alone; C186_keys: with C28, the exact contents of GetR. The jobs are those of C176 with Ex added, so C176_work, C176_ends and C176_alone (nobody panics, all return) hold with exports too. Exports of the root are not part of this: they read the other sections (C155 - C158). Filters must not look at the addresses of nodes."
  },
  {
   "property": "C187",
   "status": "proved",
   "theorems": [
    "C187_count"
   ],
   "note": "C187_count, from C176_work with Update among the calls of a job. The callback calls SetData once with a function of the old value; for callbacks that call other methods C176_work gives the same with Wr (WUpdate f)."
  },
  {
   "property": "C188",
   "status": "proved",
   "theorems": [
    "C188_depth",
    "C188_nodes"
   ],
   "note": "C188_nodes and C188_depth, for all histories of the sequential API: every node stands at the empty key or where two written keys part (invariant from the effect of each call on the nodes), and n keys have at most 2n-1 common prefixes. C188_ex shows a history that meets both bounds."
  },
  {
   "property": "C189",
   "status": "partial",
   "theorems": [
    "C189_refuted"
   ],
   "note": "REFUTED: C189_refuted gives, for every n, a history that writes and removes two keys at a time after which no written key is there, every node left is an empty branch node, and there are more than n of them (Remove takes the node of the key, not the branch node above that it leaves without purpose). Positive part: C188, the nodes are bounded by the keys ever written."
  },
  {
   "property": "C190",
   "status": "proved",
   "theorems": [
    "C190_plain",
    "C190_query"
   ],
   "note": "C190_query counts the reads of the program p_query, which reads the path once per rune as the code does and the block for patterns once; C190_plain is the case of one search. The constants belong to the model's accesses, not to machine instructions. Patterns: not covered."
  },
  {
   "property": "C191",
   "status": "proved",
   "theorems": [
    "C191_set"
   ],
   "note": "C191_set counts the accesses of the program p_set. A node created and an array created count as one access each, whatever their size; copying the children on append counts once per child."
  },
  {
   "property": "C192",
   "status": "proved",
   "theorems": [
    "C192_remove"
   ],
   "note": "C192_remove counts the accesses of the program p_removeEx, search included."
  },
  {
   "property": "C193",
   "status": "proved",
   "theorems": [
    "C193_calls",
    "C193_fan"
   ],
   "note": "C193_fan holds for all histories, with patterns or not; C193_calls needs keys without patterns for Query and Remove, as C190 does."
  },
  {
   "property": "C194",
   "status": "partial",
   "theorems": [
    "C194_hist",
    "C194_query",
    "C194_refuted",
    "C194_remove"
   ],
   "note": "REFUTED: C194_refuted has 64 keys whose six segments are either a name or a pattern; the lookup of a path that is not there searches every one of them (353 accesses, the bound is 334; C195 has the case for every depth). Positive part, for all trees and all paths: C194_query, no node is read by more than one descent for each path that is tried, so the cost is at most linear in the size of the tree; C194_hist, the same in the number and the length of the keys written; C194_remove, the same for Remove."
  },
  {
   "property": "C195",
   "status": "partial",
   "theorems": [
    "C195_doubles",
    "C195_keys",
    "C195_refuted"
   ],
   "note": "REFUTED for every polynomial: C195_refuted. C195_doubles has, for every n, the 2^(n+1) keys whose n+1 segments are either a name or a pattern (2n+3 runes each, out of four) and a path of 2n+3 runes that is not there; its lookup makes at least 2^n accesses, however the arrays grow. The upper bound is C194 (linear in the size of the tree); without patterns C193 (linear in the length of the path)."
  },
  {
   "property": "C196",
   "status": "proved",
   "theorems": [
    "C196_keys",
    "C196_prefixes"
   ],
   "note": "Every rune of every fragment is identified with the way that leads to it; the ways are pairwise different and each is a prefix of a key that was written."
  },
  {
   "property": "C197",
   "status": "proved",
   "theorems": [
    "C197_history",
    "C197_plain_history",
    "C197_set_get"
   ],
   "note": "C197_history: refinement to the finite map for all histories in which no lookup meets a pattern (apart); C197_plain_history: histories without patterns are such histories, so that C197 extends C01; C197_set_get for one Set followed by a Query. On views of BR() the paths with inner segments left out count as looked up, too."
  },
  {
   "property": "C198",
   "status": "proved",
   "theorems": [
    "C198_query",
    "C198_remove",
    "aside_meaning",
    "aside_plain"
   ],
   "note": "For all reachable trees, with any patterns; with aside_meaning spelling out what it is to meet a pattern."
  },
  {
   "property": "C199",
   "status": "partial",
   "theorems": [
    "C199_refuted"
   ],
   "note": "REFUTED: C199_refuted: after \"/u/:id\" and then \"/u/list\" are set, Get(\"/u/list\") is the value of \"/u/:id\", and Remove(\"/u/list\") removes \"/u/:id\" and keeps \"/u/list\". Positive part: C197_set_get (no pattern is met) and C200_first_served (the key was there before the pattern); C201 has the case of the pattern that was there first in general."
  },
  {
   "property": "C200",
   "status": "proved",
   "theorems": [
    "C200_first_served"
   ],
   "note": "Invariant lead: on the way to the key every earlier sibling is left by the search; inserts append, splits and removals keep the order."
  },
  {
   "property": "C201",
   "status": "proved",
   "theorems": [
    "C201_param",
    "C201_tail",
    "C201_wild"
   ],
   "note": "C201_param, C201_wild for Query and Remove, C201_tail for routes with a parameter and a tail (with the length condition of C24). With C200 it says who answers when a path and a route that matches it are both stored: the one that was there first."
  },
  {
   "property": "C202",
   "status": "proved",
   "theorems": [
    "C202_pieces"
   ],
   "note": "For any tree, reachable or not; delimiters other than ':' and '*'. The path tried meets a pattern of the key (it follows the key to a pattern and goes on there with another rune)."
  },
  {
   "property": "C203",
   "status": "partial",
   "theorems": [
    "C203_refuted"
   ],
   "note": "REFUTED: C203_refuted: \"/u/:id\" and \"/u/:id*x\" are stored; \"/u/12/34\" finds the value of \"/u/:id*x\", with x = \"/34\": after a parameter that ends a fragment the flag \"last rune is a delimiter\" stays set (radix/node.go, matchR: break masterLoop, then the loop over base.children), so that the '*' in the middle of the segment acts as a wildcard. Positive part: C202: names come only from keys that have a proper pattern, right after a delimiter, that the path meets."
  },
  {
   "property": "C204",
   "status": "partial",
   "theorems": [
    "C204_none",
    "C204_refuted"
   ],
   "note": "REFUTED: C204_refuted: \"/a/:x/b\" and \"/a/list\" are stored; \"/a/list\" is found with the binding x = \"list\" of the other key, and \"/a/other\" is not found but has a binding: the map is not cleared when a sibling fails. Positive part: C204_none: a path that meets no pattern is told no bindings; C202: what the bindings can be; C23-C25, C80, C201: exactly the bindings of the route if it is the only one the path meets."
  },
  {
   "property": "C205",
   "status": "partial",
   "theorems": [
    "C205_clash",
    "C205_refuted"
   ],
   "note": "REFUTED: C205_refuted: \"/user/:id\" and \"/user/:name\" each answer for \"/user/bob\" when alone; with both stored \"/user/bob\" is not found: the tree splits the keys behind the ':', and the fragment that ends there has no name. Positive part: C205_clash: exactly what such a path finds: nothing, with the empty name bound (no common beginning of the names), or the node at which the names part, with the common beginning of the names bound (found only if that beginning is a route itself). With more segments such a lookup can run forever: C07."
  },
  {
   "property": "C206",
   "status": "proved",
   "theorems": [
    "C206_found",
    "C206_stays"
   ],
   "note": "C206_found: what Query answers and binds for routes with any number of parameters and each of the three ends; C206_stays: the same after any later calls, and what Remove of such a path removes. The number of jumps to the label retriever is the number of parameters (length l <= rf)."
  },
  {
   "property": "C207",
   "status": "proved",
   "theorems": [
    "C207_found",
    "C207_long_segments",
    "C207_removed"
   ],
   "note": "C207_found: what Query answers and binds for a route in a tree of routes; C207_removed: what Remove of its path removes; C207_long_segments: a condition on the segments alone that gives the condition roomy on the tree. The number of jumps to the label retriever is the number of parameters."
  },
  {
   "property": "C208",
   "status": "proved",
   "theorems": [
    "C208_short"
   ],
   "note": "C208_short: the exact answer in both cases (lookups that may create nodes aside, hmode h <> ModeUp). The example finds \"/u/12/posts\" answered by the route \"/u/:user-id\", \"/u/1/posts\" not at all and \"/u/123/posts\" by \"/u/:user-id/posts\"."
  },
  {
   "property": "C209",
   "status": "partial",
   "theorems": [
    "C209_over",
    "C209_refuted"
   ],
   "note": "REFUTED: C209_refuted: with the routes \"/u/:id/posts\" and \"/u/:id/posts/all\" the path \"/u/1234/posts\" is answered by \"/u/:id/posts/all\", and Remove of it removes that route. Positive part C209_over: the exact answer for such paths: not found if nothing extends the route, and otherwise answered by a key that extends it."
  },
  {
   "property": "C210",
   "status": "partial",
   "theorems": [
    "C210_kibi",
    "C210_kilo",
    "C210_refuted"
   ],
   "note": "REFUTED: C210_refuted: \"3ZiB\" is taken for three bytes, \"1Gk\" for 1024. Positive part C210_kibi, C210_kilo: what is answered for a number with any run of the letters kmgtpezy: the number times the unit of the last letter, with z and y counting as one byte."
  },
  {
   "property": "C211",
   "status": "proved",
   "theorems": [
    "C211_apart",
    "C211_lookup",
    "C211_reads",
    "C211_set",
    "C211_text",
    "C211_well",
    "C211_wellformed"
   ],
   "note": "C211_reads, C211_well, C211_text: the model's conversions between bytes and runes are those of UTF-8, stated with bits instead of ranges of bytes; C211_lookup, C211_set: keys that read the same are one key (views that look upwards aside: these cut the path as bytes); C211_apart, C211_wellformed: others are not."
  },
  {
   "property": "C212",
   "status": "proved",
   "theorems": [
    "C212_beyond"
   ],
   "note": "C212_beyond: the exact answer of Query, and what Locate reports (lookups that may create nodes aside; the delimiter is neither ':' nor '*'). In the example \"/user/7/posts\" is not found and \"/user/17/posts\" is answered by the route \"/user/:user-id\"."
  },
  {
   "property": "C213",
   "status": "proved",
   "theorems": [
    "C213_int",
    "C213_int_clamped",
    "C213_int_error",
    "C213_int_written",
    "C213_must_int",
    "C213_must_uint",
    "C213_uint",
    "C213_uint_over",
    "C213_uint_signed",
    "C213_uint_written"
   ],
   "note": "strconv.ParseInt(s, 0, 64) is modelled on top of the ParseUint of the size functions, without the texts of errors."
  },
  {
   "property": "C214",
   "status": "partial",
   "theorems": [
    "C214_refuted"
   ],
   "note": "REFUTED: C214_refuted: \"99999999999999999999 bottles\" gives the largest number, \"99 bottles\" gives 0. Positive part: C213_int_error (an error leaves 0 or a bound)."
  },
  {
   "property": "C215",
   "status": "partial",
   "theorems": [
    "C215_refuted"
   ],
   "note": "REFUTED: C215_refuted: after app.dump.to and app.dump.from are written, GetT(\"app.dump\") and GetT(\"app.dump.\") answer the conversion of nil without an error and ignore the default, while GetT(\"path\") with the one key path.to reports NotFound. Positive part: C216_unwritten says exactly when."
  },
  {
   "property": "C216",
   "status": "proved",
   "theorems": [
    "C216_branch",
    "C216_section",
    "C216_unwritten"
   ],
   "note": "Conversions are any function of the value; C32 has the getters of present and absent keys."
  },
  {
   "property": "C217",
   "status": "proved",
   "theorems": [
    "C217_learns"
   ],
   "note": "For stores whose handle is not recursive and keys without patterns; other calls that write (Merge, Load, Update, views) call no or other handlers: C38, C85."
  },
  {
   "property": "C218",
   "status": "partial",
   "theorems": [
    "C218_refuted"
   ],
   "note": "REFUTED: C218_refuted: with app.level stored, Remove(\"app.x.y.level\") through BR removes app.level, SetTag and SetComment change it; without BR they do nothing. Positive part: C219 says what they do."
  },
  {
   "property": "C219",
   "status": "proved",
   "theorems": [
    "C219_comment",
    "C219_remove",
    "C219_tag"
   ],
   "note": "The candidates before the key taken are misses; a partial match stops the search (C27)."
  },
  {
   "property": "C220",
   "status": "partial",
   "theorems": [
    "C220_refuted"
   ],
   "note": "REFUTED: C220_refuted: with app.debug stored StartsWith(\"app.debug\", 'd') is false and 'a' answers true; after app.dump is written 'a' answers false. Positive part: C221 says what is tested; EndsWith is as the comment says for keys."
  },
  {
   "property": "C221",
   "status": "proved",
   "theorems": [
    "C221_absent",
    "C221_key",
    "C221_section"
   ],
   "note": "Keys without patterns; not through a recursive view for paths that are absent."
  },
  {
   "property": "C222",
   "status": "proved",
   "theorems": [
    "C222_last",
    "C222_marks",
    "C222_other"
   ],
   "note": "Sources that answer by Read or by bytes and a codec, or report an error (gives); streams: C44. Which keys the values of a source go to: C40, C86."
  },
  {
   "property": "C223",
   "status": "proved",
   "theorems": [
    "C223_again"
   ],
   "note": "With the option for flattening it is false: C224_refuted_again."
  },
  {
   "property": "C224",
   "status": "partial",
   "theorems": [
    "C224_refuted",
    "C224_refuted_again"
   ],
   "note": "REFUTED: C224_refuted: after a Load with WithStoreFlattenSlice(true) a later Load without it stores l.0 and l.1 instead of l; C224_refuted_again: loading the same sources once more changes the data. Positive part: C225 says which flag stays."
  },
  {
   "property": "C225",
   "status": "proved",
   "theorems": [
    "C225_left"
   ],
   "note": ""
  },
  {
   "property": "C226",
   "status": "proved",
   "theorems": [
    "C226_again",
    "C226_last"
   ],
   "note": "Which keys the scalars of a map go to: C40."
  },
  {
   "property": "C227",
   "status": "proved",
   "theorems": [
    "C227_swap"
   ],
   "note": ""
  },
  {
   "property": "C228",
   "status": "proved",
   "theorems": [
    "C228_covered"
   ],
   "note": "Merge does not replace a section: keys that only the earlier map has stay (C226)."
  },
  {
   "property": "C229",
   "status": "proved",
   "theorems": [
    "C229_above",
    "C229_section",
    "C229_walk"
   ],
   "note": ""
  },
  {
   "property": "C230",
   "status": "proved",
   "theorems": [
    "C230_before",
    "C230_run",
    "C230_step",
    "C230_sub"
   ],
   "note": "C230_sub and C230_before say what the two relations of lists mean."
  },
  {
   "property": "C231",
   "status": "proved",
   "theorems": [
    "C231_first",
    "C231_later"
   ],
   "note": ""
  },
  {
   "property": "C232",
   "status": "partial",
   "theorems": [
    "C232_refuted"
   ],
   "note": "REFUTED: C232_refuted: for every two keys with different first runes the two orders of setting them give two orders of Walk. Positive part: C231 says which order it is."
  },
  {
   "property": "C233",
   "status": "proved",
   "theorems": [
    "C233_exact"
   ],
   "note": "With C73 (which nodes there are) this determines the list of the keys in the order of Walk."
  },
  {
   "property": "C234",
   "status": "proved",
   "theorems": [
    "C234_firsts"
   ],
   "note": "The lines of Dump come in the order of Walk (C114)."
  },
  {
   "property": "C235",
   "status": "proved",
   "theorems": [
    "C235_again"
   ],
   "note": ""
  },
  {
   "property": "C236",
   "status": "proved",
   "theorems": [
    "C236_new",
    "C236_remove",
    "C236_run",
    "C236_step"
   ],
   "note": "A refinement of the tree to a list of keys (put_key). Which keys Remove removes is C75."
  },
  {
   "property": "C237",
   "status": "proved",
   "theorems": [
    "C237_dedicated",
    "C237_load",
    "C237_merge",
    "C237_merges"
   ],
   "note": ""
  },
  {
   "property": "C238",
   "status": "partial",
   "theorems": [
    "C238_refuted"
   ],
   "note": "REFUTED (C238_refuted): the loops range over maps of Go, whose iteration order is not fixed: two iteration orders of one map with two keys give trees with the same data and marks but another order of Walk and another text of Dump (whatever the colouring and formatting functions are). Positive part: C237 says which order it is; C226 and C86: the data do not depend on it."
  },
  {
   "property": "C239",
   "status": "proved",
   "theorems": [
    "C239_delim",
    "C239_new",
    "C239_own",
    "C239_prefix"
   ],
   "note": ""
  },
  {
   "property": "C240",
   "status": "partial",
   "theorems": [
    "C240_one",
    "C240_refuted"
   ],
   "note": "REFUTED (C240_refuted): WithPrefix, WithPrefixReplaced, N, R and BR of a dummy store return the receiver, so SetPrefix through the view changes the prefix of the original. Positive part: C240_one: all handles of a dummy store always have one prefix, the one set last through any of them."
  },
  {
   "property": "C241",
   "status": "proved",
   "theorems": [
    "C241_dup",
    "C241_family",
    "C241_map",
    "C241_number",
    "C241_settings",
    "C241_still"
   ],
   "note": ""
  },
  {
   "property": "C242",
   "status": "proved",
   "theorems": [
    "C242_answers",
    "C242_present",
    "C242_set"
   ],
   "note": ""
  },
  {
   "property": "C243",
   "status": "proved",
   "theorems": [
    "C243_from",
    "C243_session"
   ],
   "note": "Handlers that call the store back are not modelled."
  },
  {
   "property": "C244",
   "status": "proved",
   "theorems": [
    "C244_quiet"
   ],
   "note": "Handlers that call the store back are not modelled."
  }
 ]
}