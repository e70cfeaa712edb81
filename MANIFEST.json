{
 "claims": [
  {
   "property": "C01",
   "status": "proved",
   "theorems": [
    "C01_boxing"
   ],
   "note": "every 64-bit integer; makeint/intval with tag-2, tag-3 and one-word bignum forms"
  },
  {
   "property": "C02",
   "status": "partial",
   "theorems": [
    "C02_one_representation_refuted",
    "C02_normalize_negative_refuted",
    "C02_one_representation_partial"
   ],
   "note": "false for the code: products equal to -2^61 and sums of negative bignums are left un-normalised, so = answers NIL on equal numbers; true for canonical objects, and non-negative numbers are normalised to canonical form"
  },
  {
   "property": "C03",
   "status": "proved",
   "theorems": [
    "C03_add_sub_int_big"
   ],
   "note": ""
  },
  {
   "property": "C04",
   "status": "proved",
   "theorems": [
    "C04_negation"
   ],
   "note": ""
  },
  {
   "property": "C05",
   "status": "proved",
   "theorems": [
    "C05_double_word"
   ],
   "note": ""
  },
  {
   "property": "C06",
   "status": "proved",
   "theorems": [
    "C06_mul_int_big"
   ],
   "note": ""
  },
  {
   "property": "C07",
   "status": "proved",
   "theorems": [
    "C07_div_int_big"
   ],
   "note": ""
  },
  {
   "property": "C08",
   "status": "proved",
   "theorems": [
    "C08_big_plus"
   ],
   "note": ""
  },
  {
   "property": "C09",
   "status": "partial",
   "theorems": [
    "C09_plus_refuted",
    "C09_plus_partial"
   ],
   "note": "(+ 2^61 -2^61-1 5) dereferences a fixnum; otherwise exact whenever it answers, total for two or for non-negative arguments"
  },
  {
   "property": "C10",
   "status": "partial",
   "theorems": [
    "C10_big_times_refuted",
    "C10_big_times_partial"
   ],
   "note": "big_times keeps digits of the first factor in an int: (* 2^62 2^62) = 0; exact when digits are below 2^31 or with a 64-bit multiplier variable"
  },
  {
   "property": "C11",
   "status": "partial",
   "theorems": [
    "C11_compare_refuted",
    "C11_compare_partial"
   ],
   "note": "negative bignums of equal length and top word compare the wrong way round; exact in all other canonical cases"
  },
  {
   "property": "C12",
   "status": "proved",
   "theorems": [
    "C12_extract",
    "C12_deposit_then_extract",
    "C12_extract_then_deposit"
   ],
   "note": ""
  },
  {
   "property": "C13",
   "status": "partial",
   "theorems": [
    "C13_logand_refuted",
    "C13_logand_mixed_refuted",
    "C13_logior_refuted",
    "C13_logxor_refuted",
    "C13_logior_partial",
    "C13_logxor_partial",
    "C13_logeqv_partial",
    "C13_lognand_partial",
    "C13_lognor_partial",
    "C13_lognot_partial",
    "C13_logtest_partial",
    "C13_logbitp_partial",
    "C13_logand_bignum_partial",
    "C13_logand_int32_partial"
   ],
   "note": "logand keeps its fixnum accumulator in a C int and mishandles fixnum-then-bignum; logior drops all but 64 bits; the rest reject bignums; exact elsewhere"
  },
  {
   "property": "C14",
   "status": "partial",
   "theorems": [
    "C14_ash_refuted",
    "C14_ash_overrun_refuted",
    "C14_ash_carry_refuted",
    "C14_ash_fixnum_partial",
    "C14_ash_bignum_partial"
   ],
   "note": "left shifts lose the top bits (lowest set bit is tested), write past the vector when the count is a multiple of 63, and do not carry between words; exact elsewhere"
  },
  {
   "property": "C15",
   "status": "partial",
   "theorems": [
    "C15_print_read_base36_refuted",
    "C15_print_read_long_refuted",
    "C15_print_read_partial",
    "C15_print_total"
   ],
   "note": "tokens shorter than 8 characters go through a C int (bases above 21 can overflow it); tokens of 1024 characters or more are rejected; all other integers round-trip"
  },
  {
   "property": "C16",
   "status": "partial",
   "theorems": [
    "C16_append",
    "C16_nth_partial",
    "C16_nth_refuted",
    "C16_nthcdr_partial",
    "C16_nthcdr_refuted",
    "C16_last",
    "C16_length",
    "C16_butlast_partial",
    "C16_reverse",
    "C16_copy_seq",
    "C16_copy_list",
    "C16_member",
    "C16_assoc"
   ],
   "note": "append, last, length, reverse, copy-list, copy-seq, member and assoc hold for every proper list; nth, nthcdr and butlast hold for indices below 2^31 and are wrong above, because the index is read into a C int"
  },
  {
   "property": "C17",
   "status": "partial",
   "theorems": [
    "C17_nconc",
    "C17_nreverse",
    "C17_nbutlast_partial",
    "C17_nbutlast_refuted"
   ],
   "note": "nconc (lists sharing no cell) and nreverse hold in full; nbutlast writes through a stray word when every element is to be dropped"
  },
  {
   "property": "C18",
   "status": "partial",
   "theorems": [
    "C18_selected",
    "C18_position",
    "C18_find",
    "C18_count_partial",
    "C18_count_refuted",
    "C18_remove_list",
    "C18_remove_vec_partial",
    "C18_remove_vec_refuted",
    "C18_substitute_list",
    "C18_substitute_vec_partial",
    "C18_substitute_vec_refuted",
    "C18_nsubstitute_vec",
    "C18_nsubstitute_list",
    "C18_delete_list_partial",
    "C18_delete_list_refuted",
    "C18_delete_vec_partial",
    "C18_delete_vec_refuted"
   ],
   "note": "full for position, find, nsubstitute and for remove and substitute on lists; remove, substitute and delete on vectors lose elements when :count (delete also :end) stops the scan early; delete on a list misses a match exactly at :start > 0; count on a list is NIL when :start is the length"
  },
  {
   "property": "C19",
   "status": "partial",
   "theorems": [
    "C19_sort_vector",
    "C19_sort_list",
    "C19_sort_string_partial",
    "C19_sort_string_refuted",
    "C19_merge_vector",
    "C19_merge_list_partial",
    "C19_merge_list_answers_partial",
    "C19_merge_list_refuted"
   ],
   "note": "libc qsort is modelled by glibc's merge sort; strings with bytes above 127 are ordered as signed chars; merge of lists compares NIL when list2 has an element after all of list1"
  },
  {
   "property": "C20",
   "status": "proved",
   "theorems": [
    "C20_equal_is_structural",
    "C20_eq_implies_equal",
    "C20_symmetric",
    "C20_transitive"
   ],
   "note": "FOREIGN strings and superequal not modelled."
  },
  {
   "property": "C21",
   "status": "partial",
   "theorems": [
    "C21_equal_hash_partial",
    "C21_refuted"
   ],
   "note": "Holds for numbers, strings, symbols, data vectors, vectors and lists of those; instances and bignums hash by address, so equal ones may differ (refuted)."
  },
  {
   "property": "C22",
   "status": "proved",
   "theorems": [
    "C22_hash_table_is_a_map",
    "C22_lookup_returns_latest"
   ],
   "note": "every rehash factor in (1,2], sizes at which the load test leaves room (3 and up for the defaults 1.7 and 2.0)"
  },
  {
   "property": "C23",
   "status": "partial",
   "theorems": [
    "C23_lookup_terminates_refuted",
    "C23_lookup_terminates_partial"
   ],
   "note": "tables created with size 1 or 2 fill up and a lookup of an absent key never ends; terminates for every size from 3 up with the default factor"
  },
  {
   "property": "C24",
   "status": "proved",
   "theorems": [
    "C24_queue_is_fifo",
    "C24_none_lost_or_duplicated"
   ],
   "note": "all interleavings of enqueue, dequeue, :empty?, :first, :last, :length and :trim; :search and :delete are not modelled"
  },
  {
   "property": "C25",
   "status": "proved",
   "theorems": [
    "C25_intern_idempotent",
    "C25_names_distinguish",
    "C25_intern_idempotent_exportall_refuted"
   ],
   "note": "every history of interns in the default mode with nobody using the keyword package; fails when sys::exportall is switched on, which is shown separately"
  },
  {
   "property": "C26",
   "status": "partial",
   "theorems": [
    "C26_lookup_terminates_refuted",
    "C26_lookup_terminates_partial"
   ],
   "note": "importing the same symbol repeatedly fills the table and the next lookup never ends; terminates for every history of intern, export, unexport and unintern"
  },
  {
   "property": "C27",
   "status": "partial",
   "theorems": [
    "C27_unexport_refuted",
    "C27_unintern_duplicate_refuted",
    "C27_unintern_wrong_symbol_refuted",
    "C27_unintern_partial"
   ],
   "note": "unexport breaks the probe chain of other symbols, a re-exported symbol survives unintern, and unintern goes by name; unintern is exact in states where no symbol was exported twice"
  },
  {
   "property": "C28",
   "status": "proved",
   "theorems": [
    "C28_get_returns_last_put"
   ],
   "note": "every sequence of putprop and remprop on one object"
  },
  {
   "property": "C29",
   "status": "proved",
   "theorems": [
    "C29_subclassp_is_ancestor"
   ],
   "note": "every sequence of class definitions and instantiations within the 4096-entry table"
  },
  {
   "property": "C30",
   "status": "partial",
   "theorems": [
    "C30_send_finds_current_method_partial",
    "C30_nil_selector_refuted",
    "C30_delete_method_refuted",
    "C30_store_race_refuted"
   ],
   "note": "holds for every history of operations taken as single steps and every selector but NIL; fails for selector NIL after a purge, for other threads after delete-method, and when defmethod runs between the search and the store of findmethod"
  },
  {
   "property": "C31",
   "status": "partial",
   "theorems": [
    "C31_double_allocation_refuted",
    "C31_heap_partition_partial",
    "C31_alloc_partial",
    "C31_split_merge"
   ],
   "note": "Fibonacci buddy allocator with root and thread free lists, splitting, merging, sweeping; invariant over all histories of requests whose cell index is below 39. sweepall does not purge the free list of index 39 (MAXBUDDY-1), so a dead cell of that index is put on the list twice and is then given out twice (refuted). Free lists are Coq lists; malloc is a parameter that returns fresh memory; an allocation may run out of fuel."
  },
  {
   "property": "C32",
   "status": "partial",
   "theorems": [
    "C32_closure_refuted",
    "C32_markall_partial"
   ],
   "note": "mark, newgcstack and markall over the heap model, with the explicit mark stack and its extension: always ends, no stack overflow, marks exactly what is reachable through non-closure objects plus the thread-local free cells. Slots of closures are not followed, so what only a closure refers to is not marked (refuted). Assumes that aligned words in the heap range met by the marker are pointers to cells."
  },
  {
   "property": "C33",
   "status": "partial",
   "theorems": [
    "C33_collection_partial",
    "C33_collect_garbage_partial"
   ],
   "note": "After any history below index 39 a collection ends; marked cells, cells with a dispose hook and thread-local free cells keep size and contents; every other cell of the heap is on the free list of its index. Composed with the marker of C32: the cells kept are exactly the used ones and those with a dispose hook, the used cells are the same after the collection, and no dangling pointers arise."
  },
  {
   "property": "C34",
   "status": "partial",
   "theorems": [
    "C34_copy_object_partial",
    "C34_one_slot_refuted",
    "C34_empty_vector_refuted"
   ],
   "note": "copy-object with its marking, reference vector and reset passes: the result is an isomorphic disjoint copy of the reachable graph with sharing and cycles, originals are unchanged and no mark is left. Objects with fewer than two slots and empty pointer vectors make the copier follow a NULL padding word (both refuted)."
  },
  {
   "property": "C35",
   "status": "partial",
   "theorems": [
    "C35_variables_partial",
    "C35_restored_partial",
    "C35_cleanup_refuted"
   ],
   "note": "Evaluator stack with special, catch, block and protect frames. For every program given a meaning by the rules of ControlSpec, a variable assigned only under its own bindings is restored on every exit, and for tame programs (cleanup forms use no variable the program binds) all variables agree with the standard meaning. A cleanup form run by a non-local exit still sees the inner bindings (refuted). Not covered: cleanup forms left by return-from, or by throw during a return-from."
  },
  {
   "property": "C36",
   "status": "partial",
   "theorems": [
    "C36_brackets_partial",
    "C36_once_partial",
    "C36_twice_refuted"
   ],
   "note": "Entries and cleanups nest like brackets on every route, for every program given a meaning by the rules; a throw out of a cleanup form run by return-from can re-enter the protected form, and the cleanup runs twice (refuted)."
  },
  {
   "property": "C37",
   "status": "partial",
   "theorems": [
    "C37_agrees_partial",
    "C37_coded_partial",
    "C37_innermost",
    "C37_zero_refuted",
    "C37_zero_return_refuted",
    "C37_cleanup_return_refuted"
   ],
   "note": "The machine with frames and jumps computes the frame-less meaning: innermost eq tag, lexically visible block, the given value. 0.0 arrives as the integer 0 and return-from in a cleanup form run by a throw finds no block (refuted)."
  },
  {
   "property": "C38",
   "status": "partial",
   "theorems": [
    "C38_binds_partial",
    "C38_leftmost",
    "C38_coded_partial",
    "C38_compiled_partial",
    "C38_allow_late_refuted",
    "C38_allow_nil_refuted",
    "C38_scope_refuted",
    "C38_aux_refuted",
    "C38_compiled_many_refuted"
   ],
   "note": "Interpreter (funlambda, bindkeyparams) and compiled route (parsekeyparams). The leftmost argument wins for all calls; binding, defaults and refusals are the standard ones unless :allow-other-keys is among the arguments, a default uses a later keyword parameter, or a list with &aux gets too many arguments (each refuted); compiled functions only up to 31 keywords (refuted above). Lexical variables without declarations."
  },
  {
   "property": "C39",
   "status": "proved",
   "theorems": [
    "C39_string_roundtrip"
   ],
   "note": "Printer and reader for strings, every byte string, any following text. Default readtable."
  },
  {
   "property": "C40",
   "status": "partial",
   "theorems": [
    "C40_symbol_roundtrip_partial",
    "C40_backslash_refuted",
    "C40_backslash_name_refuted",
    "C40_number_refuted",
    "C40_bytes_refuted",
    "C40_long_refuted"
   ],
   "note": "Symbols of the current package and keywords. The round trip holds for names without backslashes and control characters, below 1024 characters, that do not look like a number and begin below byte 128. Backslashes are not escaped between bars; +5, 1E5, 1/2 print like numbers; control characters are rejected; names of 1024 characters are rejected; a bar at the end of the 256-byte buffer is written past it (all refuted). Package prefixes and uninterned symbols are not modelled."
  },
  {
   "property": "C41",
   "status": "partial",
   "theorems": [
    "C41_data_roundtrip_partial",
    "C41_default_partial",
    "C41_dot_refuted",
    "C41_length_refuted"
   ],
   "note": "Nested lists, dotted pairs, vectors, quote and function abbreviations, strings, symbols, integers; equal datum and exact rest of the text. Restrictions: names as in C40, no symbol named by a single dot inside a list, integers of fewer than 1024 characters, bases 2 to 21, nesting and list length within the print limits (65536 when NIL). Beyond these it fails (refuted). Floats, ratios, structures and #n= labels are not modelled."
  },
  {
   "property": "C42",
   "status": "partial",
   "theorems": [
    "C42_backquote_partial",
    "C42_splice",
    "C42_templates_cover",
    "C42_vector_refuted"
   ],
   "note": "The reader's backquote expansion evaluates to the template with its commas filled in, for every list template with , and ,@. Commas inside vector templates are not replaced (refuted)."
  },
  {
   "property": "C43",
   "status": "partial",
   "theorems": [
    "C43_delivered_partial",
    "C43_order_partial",
    "C43_short_write_refuted",
    "C43_failed_write_refuted",
    "C43_empty_buffer_refuted"
   ],
   "note": "Full delivery for every program and buffer size when write(2) takes everything; for arbitrary answers what is delivered is a subsequence. A short or failing write loses bytes silently (refuted), so does an empty buffer."
  },
  {
   "property": "C44",
   "status": "proved",
   "theorems": [
    "C44_input",
    "C44_contents"
   ],
   "note": "Every program of read-char, unread-char of the last character, peek-char and read-line, every chunking."
  },
  {
   "property": "C45",
   "status": "partial",
   "theorems": [
    "C45_accumulates_partial",
    "C45_or_error_partial",
    "C45_empty_refuted"
   ],
   "note": "Initial size >= 1; beyond 10^6 bytes the code may signal that the string is too long; initial size 0 writes outside the buffer or loops (refuted)."
  },
  {
   "property": "C46",
   "status": "partial",
   "theorems": [
    "C46_aset_partial",
    "C46_aref",
    "C46_setbit",
    "C46_bit",
    "C46_fastvset",
    "C46_aset_bit_partial",
    "C46_aset_bit_refuted"
   ],
   "note": "Full for general, string and integer vectors, for setbit and for the sequence functions' store. aset on bit vectors truncates its mask to int: index 31 of a word smears over 31-63, indices 32-63 are not stored (refuted). Float vectors not modelled."
  },
  {
   "property": "C47",
   "status": "partial",
   "theorems": [
    "C47_index",
    "C47_injective",
    "C47_aset_aref",
    "C47_out_of_range_partial",
    "C47_out_of_range_refuted"
   ],
   "note": "In-range part proved in full; negative subscripts and subscripts >= 2^32 are not reported (refuted)."
  },
  {
   "property": "C48",
   "status": "proved",
   "theorems": [
    "C48_bit_op",
    "C48_bit_not",
    "C48_size_mismatch"
   ],
   "note": "Includes results stored into an argument."
  },
  {
   "property": "C49",
   "status": "partial",
   "theorems": [
    "C49_stack_partial",
    "C49_readable",
    "C49_refuted"
   ],
   "note": "Every history on non-displaced general, string and integer arrays; bit arrays, displaced arrays, arrays smaller than their storage and empty arrays fail (refuted)."
  },
  {
   "property": "C50",
   "status": "proved",
   "theorems": [
    "C50_exclusion",
    "C50_progress"
   ],
   "note": "Every interleaving of fewer than 2^32-1 threads (the thread table holds 64) that release only locks they hold; spurious wake-ups included. Beside exclusion: nobody is left asleep on a free lock."
  },
  {
   "property": "C51",
   "status": "partial",
   "theorems": [
    "C51_waits",
    "C51_none_lost_partial",
    "C51_overflow_refuted"
   ],
   "note": "Waits never exceed posts without any bound; no post is lost, and no waiter left behind, while fewer than 2^32 posts are pending; the 32-bit counter wraps at 2^32 (refuted). The initial value given to sema_init is ignored."
  },
  {
   "property": "C52",
   "status": "proved",
   "theorems": [
    "C52_result",
    "C52_runs",
    "C52_no_error",
    "C52_progress"
   ],
   "note": "Every interleaving of any number of clients and workers, thread and thread-no-wait mixed, wait-thread called once for each port that thread returned (by any thread). Semaphores as counters (C51), slots accessed one at a time. Each request is run at most once, with its own function and arguments."
  },
  {
   "property": "C53",
   "status": "proved",
   "theorems": [
    "C53_in_order",
    "C53_returns",
    "C53_progress"
   ],
   "note": "Every interleaving of any number of readers and writers, semaphores as counters (C51)."
  },
  {
   "property": "C54",
   "status": "partial",
   "theorems": [
    "C54_replace_vector_partial",
    "C54_replace_vector_refuted",
    "C54_replace_list_partial",
    "C54_replace_list_refuted"
   ],
   "note": "overlapping ranges of one vector go through memcpy (undefined), of one list are smeared; ranges are not checked"
  },
  {
   "property": "C55",
   "status": "partial",
   "theorems": [
    "C55_intersection",
    "C55_set_difference",
    "C55_union",
    "C55_adjoin_partial",
    "C55_adjoin_refuted",
    "C55_set_exclusive_or_partial",
    "C55_set_exclusive_or_refuted",
    "C55_remove_duplicates"
   ],
   "note": "adjoin does not apply the key to the item; set-exclusive-or returns keys; the rest holds in full"
  },
  {
   "property": "C56",
   "status": "partial",
   "theorems": [
    "C56_expt_refuted",
    "C56_expt_assoc",
    "C56_expt_partial"
   ],
   "note": "wrong as soon as a bignum whose digits exceed 31 bits is squared; the loop itself is right for every associative product"
  },
  {
   "property": "C57",
   "status": "proved",
   "theorems": [
    "C57_minus"
   ],
   "note": ""
  },
  {
   "property": "C58",
   "status": "partial",
   "theorems": [
    "C58_times_sign_refuted",
    "C58_times_bigbig_refuted",
    "C58_times_partial"
   ],
   "note": "(* -2^63 -1) = -2^63 and the sign of bignum x bignum is dropped; exact otherwise"
  },
  {
   "property": "C59",
   "status": "partial",
   "theorems": [
    "C59_quotient_refuted",
    "C59_quotient_partial",
    "C59_bignum_divisor_partial",
    "C59_bignum_divisor_refuted"
   ],
   "note": "fixnum / bignum is always 0 although -2^61 / 2^61 = -1; exact truncation for fixnum divisors; bignum / bignum exact when the top digit of the divisor is >= 2^31, the quotient < 2^31 and the dividend no shorter; wrong or undefined outside (five witnesses)"
  },
  {
   "property": "C60",
   "status": "proved",
   "theorems": [
    "C60_succ_pred_abs"
   ],
   "note": ""
  },
  {
   "property": "C61",
   "status": "partial",
   "theorems": [
    "C61_initial_contents_partial",
    "C61_misshapen",
    "C61_ragged_refuted",
    "C61_bit_refuted"
   ],
   "note": "General, string and integer arrays of every rank; bit arrays go through aset and lose elements (refuted)."
  },
  {
   "property": "C62",
   "status": "partial",
   "theorems": [
    "C62_copied_partial",
    "C62_copied_refuted"
   ],
   "note": "Holds when only thread is used. After a thread-no-wait whose caller has not yet taken its runsem post, a later thread call on the same port takes that post and returns before the copying (refuted)."
  },
  {
   "property": "C63",
   "status": "partial",
   "theorems": [
    "C63_plus_partial",
    "C63_minus_partial",
    "C63_negate",
    "C63_times_partial",
    "C63_quotient_partial",
    "C63_plus_refuted",
    "C63_integer_refuted",
    "C63_reciprocal_refuted",
    "C63_zero_refuted"
   ],
   "note": "Exact and in lowest terms for every argument list while each step fits in 31 bits (for + and -, over the least common denominator). Beyond that intermediate values and integers are cut to C ints; (/ 1/2) returns 1/2; division by zero is not reported (all refuted)."
  },
  {
   "property": "C64",
   "status": "proved",
   "theorems": [
    "C64_equal",
    "C64_not_equal"
   ],
   "note": "Every list of fixnums and ratios in lowest terms."
  },
  {
   "property": "C65",
   "status": "proved",
   "theorems": [
    "C65_print_read"
   ],
   "note": "Every ratio the system can hold (32-bit parts, lowest terms), bases 2 to 36, either print case."
  },
  {
   "property": "C66",
   "status": "partial",
   "theorems": [
    "C66_order_partial",
    "C66_trichotomy_partial",
    "C66_order_refuted"
   ],
   "note": "Every pair of strings without a zero byte. The comparison is strcmp and stops at a zero byte (refuted with one)."
  },
  {
   "property": "C67",
   "status": "partial",
   "theorems": [
    "C67_string_same_partial",
    "C67_string_equal_partial",
    "C67_string_same_refuted"
   ],
   "note": "All strings and all 0 <= start <= end in 31 bits. An omitted end is 100000000, so longer strings are compared only up to there (refuted)."
  },
  {
   "property": "C68",
   "status": "partial",
   "theorems": [
    "C68_string_trim_partial",
    "C68_string_left_trim_partial",
    "C68_string_right_trim_partial",
    "C68_string_trim_refuted"
   ],
   "note": "Every string and bag with no zero byte in the bag or some character that stays. Otherwise the loops run out of the string (refuted)."
  },
  {
   "property": "C69",
   "status": "partial",
   "theorems": [
    "C69_destructive_partial",
    "C69_copying_partial",
    "C69_string",
    "C69_destructive_refuted"
   ],
   "note": "All memories, strings and symbols, and all bounds within the string; the compiled code does not check bounds and writes outside (refuted)."
  },
  {
   "property": "C70",
   "status": "partial",
   "theorems": [
    "C70_substringp_partial"
   ],
   "note": "Every pair of strings, the second shorter than 100000000. Missing: longer strings (see C67)."
  },
  {
   "property": "C71",
   "status": "partial",
   "theorems": [
    "C71_name_partial",
    "C71_parts_partial",
    "C71_parts_unique",
    "C71_read_back_partial",
    "C71_parsed_expressible",
    "C71_home",
    "C71_merge_file",
    "C71_merge",
    "C71_merge_components",
    "C71_add_directory",
    "C71_concatenate_partial",
    "C71_colon_refuted",
    "C71_host_refuted",
    "C71_reparse_refuted"
   ],
   "note": "Every non-empty string without a colon. A colon starts a host, which namestring does not write back, and \"host:\" alone is an error (refuted)."
  },
  {
   "property": "C72",
   "status": "partial",
   "theorems": [
    "C72_round_trip_partial",
    "C72_return_refuted",
    "C72_plus"
   ],
   "note": "Every byte string without a Return, both options; a Return comes back as a Newline (refuted)."
  },
  {
   "property": "C73",
   "status": "partial",
   "theorems": [
    "C73_digits_partial",
    "C73_order_partial",
    "C73_different",
    "C73_collision_refuted",
    "C73_base_refuted"
   ],
   "note": "Base 10 and all fixnums that fit in the digits. Other bases lose the base in the recursion and larger numbers collide (refuted)."
  },
  {
   "property": "C74",
   "status": "partial",
   "theorems": [
    "C74_hex_partial",
    "C74_octal_partial",
    "C74_print_read_partial",
    "C74_hex_refuted",
    "C74_octal_refuted",
    "C74_octal_long_refuted",
    "C74_octal_buffer_refuted"
   ],
   "note": "At most 64 hexadecimal digits; octal below 2^63 (canonical below 2^61). Beyond that refuted."
  },
  {
   "property": "C75",
   "status": "partial",
   "theorems": [
    "C75_encode",
    "C75_decode_partial",
    "C75_round_trip_partial",
    "C75_decode_refuted"
   ],
   "note": "Encoding proved for all byte strings. Decoding proved up to one extra zero byte when the number of bytes is not a multiple of 3 (refuted)."
  },
  {
   "property": "C76",
   "status": "partial",
   "theorems": [
    "C76_mapcar_partial",
    "C76_mapc_partial",
    "C76_mapcan_partial",
    "C76_rows_exist",
    "C76_calls_total",
    "C76_maplist_partial",
    "C76_mapcon_partial",
    "C76_mapcon_parts",
    "C76_every_partial",
    "C76_some_partial",
    "C76_visits_total",
    "C76_reduce_partial",
    "C76_folds_total",
    "C76_mapcar_refuted",
    "C76_mapc_refuted",
    "C76_mapcon_refuted",
    "C76_reduce_refuted"
   ],
   "note": "Every effectful function, lists at least as long as the first. A shorter later list is an error, mapc returns NIL, mapcon reverses each part, reduce from the end folds the reversed sequence with the arguments in the order of the left fold (refuted)."
  },
  {
   "property": "C77",
   "status": "partial",
   "theorems": [
    "C77_qsort_partial",
    "C77_quick_sort_partial",
    "C77_qsort_refuted"
   ],
   "note": "Every strict order. With <= it does not end on equal elements (refuted)."
  },
  {
   "property": "C78",
   "status": "partial",
   "theorems": [
    "C78_permutations_partial",
    "C78_permutations_refuted",
    "C78_generator",
    "C78_generator_all",
    "C78_combi",
    "C78_combi2"
   ],
   "note": "Every non-empty list. The empty permutation of the empty list is left out (refuted)."
  },
  {
   "property": "C79",
   "status": "partial",
   "theorems": [
    "C79_compiled_returns_partial",
    "C79_returned_evaluates_partial",
    "C79_compiled_error_partial",
    "C79_compiled_loops_partial",
    "C79_never_stuck_partial",
    "C79_no_stray_exit_partial",
    "C79_accepts_partial",
    "C79_let_refuted",
    "C79_undeclared_refuted"
   ],
   "note": "Every function whose free variables are parameters or proclaimed special and in which a value form of a let that contains another let does not use an earlier variable of the same let. Without the second condition compiled code sees the wrong variable, without the first a lexical binding may become special (both refuted)."
  },
  {
   "property": "C80",
   "status": "partial",
   "theorems": [
    "C80_init_partial",
    "C80_init_bound_partial",
    "C80_make_partial",
    "C80_make_init_partial",
    "C80_add_partial",
    "C80_subtract_partial",
    "C80_offset_day_partial",
    "C80_interval_partial",
    "C80_init_refuted",
    "C80_negative_refuted",
    "C80_make_refuted",
    "C80_offset_day_refuted",
    "C80_interval_refuted",
    "C80_interval_sum_refuted"
   ],
   "note": "Moments from 1970 to the end of 2100 (the bound is exact; the next day is an error). The seconds of a made date are right just before March or when the current year is a leap year exactly if the date's year is; its weekday is right just in February of programs run in a common year; intervals are split right just below one day and cannot be added (all refuted otherwise)."
  },
  {
   "property": "C81",
   "status": "partial",
   "theorems": [
    "C81_when",
    "C81_unless",
    "C81_prog1",
    "C81_psetq",
    "C81_case",
    "C81_loop",
    "C81_do",
    "C81_dostar",
    "C81_dolist_partial",
    "C81_dolist_return_partial",
    "C81_dotimes_partial",
    "C81_dolist_refuted",
    "C81_dotimes_refuted"
   ],
   "note": "The expansions are equivalent to the specification in both directions. dolist and dotimes: a return in the forms ends the iteration, but then the result form is evaluated and gives the value (refuted); the theorems for them exclude return, and C81_dolist_return_partial says exactly what happens with it. Symbols made by gensym are new (hypothesis). dotimes: the variable is lexical and not assigned in the forms. Destructuring, declare, setf of other places, prog and classcase are not modelled."
  },
  {
   "property": "C82",
   "status": "partial",
   "theorems": [
    "C82_scope_partial",
    "C82_flet_refuted",
    "C82_lambda_refuted",
    "C82_letstar_refuted",
    "C82_declare_refuted",
    "C82_return_refuted"
   ],
   "note": "Programs (condition good, checked on the text) in which no local function has the name of a global one or is called free in a global function's text, no form has a lambda expression as operator, no let, let* or parameter list repeats a variable, declare special only repeats a proclamation, and a local function returns from no block outside it. Each restriction but the repeated parameter is shown necessary by a refuted theorem. Closures as values, optional and keyword parameters, catch, unwind-protect and methods are not modelled here."
  },
  {
   "property": "C83",
   "status": "partial",
   "theorems": [
    "C83_sound",
    "C83_complete",
    "C83_breadth_first",
    "C83_depth_first",
    "C83_hill_climb",
    "C83_cheapest",
    "C83_any_extend",
    "C83_best_first_refuted"
   ],
   "note": "Everything holds for depth-first, breadth-first, hill-climb and branch-and-bound. best-first holds for evaluators that answer when the first path is NIL; with others it fails after a dead end, because merge compares NIL (refuted). Recursion depth is not bounded by the model; qsort is modelled by glibc's merge sort."
  },
  {
   "property": "C84",
   "status": "partial",
   "theorems": [
    "C84_cons",
    "C84_list",
    "C84_list_star",
    "C84_append",
    "C84_subst",
    "C84_butlast",
    "C84_subseq",
    "C84_copy_seq",
    "C84_reverse",
    "C84_concatenate",
    "C84_mapcar",
    "C84_remove",
    "C84_substitute",
    "C84_sort",
    "C84_read_list",
    "C84_read_vector",
    "C84_remove_duplicates_partial",
    "C84_remove_duplicates_refuted"
   ],
   "note": "Everything holds but for remove-duplicates with a :key that builds its value: the first key's value is in a C variable only while the next keys are computed, so a collection can take it (refuted, with a collector and a run that returns a wrong list). Its theorem is for no key or a key that returns a part of its argument. The collector is a parameter that keeps what the stack, the arguments, the global roots and the last allocated object reach. Sequences are lists; results are lists, subclass lists and vectors. Called functions are pure on the content of their arguments but may allocate and collect."
  },
  {
   "property": "C85",
   "status": "partial",
   "theorems": [
    "C85_plus",
    "C85_minus",
    "C85_negate",
    "C85_scale",
    "C85_midpoint",
    "C85_normalize",
    "C85_direction",
    "C85_sum",
    "C85_cross_partial",
    "C85_cross_refuted",
    "C85_mtimes_partial",
    "C85_mtimes_refuted",
    "C85_transform",
    "C85_transform_vec",
    "C85_transpose_partial",
    "C85_transpose_refuted",
    "C85_rotate_partial",
    "C85_rotate_refuted",
    "C85_sizes",
    "C85_sizes_one",
    "C85_sizes_cross",
    "C85_sizes_matrix"
   ],
   "note": "All functions but four are proved for every coincidence of arguments. v* must not get an operand as its result (refuted); m* may get its second operand, or its first when the widths agree and the second is stored elsewhere (otherwise refuted); transpose works in place on one object, but not between two matrices of one entity (refuted); rotate-vector does not check sizes and goes beyond a short vector (refuted), and is proved for vectors that are long enough. The arithmetic is a parameter. Float vectors; the integer branches of v+ and v- are the same loops. Allocation of a new result is taken as a result vector of the right size that is no operand."
  },
  {
   "property": "C86",
   "status": "partial",
   "theorems": [
    "C86_permutation",
    "C86_solve",
    "C86_equation",
    "C86_inverse",
    "C86_singular",
    "C86_regular_partial",
    "C86_regular_refuted",
    "C86_determinant_partial",
    "C86_determinant_refuted",
    "C86_solve_in_place_refuted"
   ],
   "note": "The solution, its uniqueness, the inverse and the refusal of singular matrices are proved in full over every field. lu-determinant leaves out the sign of the permutation (refuted; proved up to the determinant of the permutation matrix). A regular matrix with small elements is refused because of the bound 1e-10 (refuted; proved for the bound zero). lu-solve with the right side as its result is wrong when rows were exchanged (refuted). Rounding is not modelled: with floating point the theorems say what is computed up to rounding of each operation only in the sense that the same operations are done."
  },
  {
   "property": "C87",
   "status": "partial",
   "theorems": [
    "C87_turns",
    "C87_axis",
    "C87_orthogonal",
    "C87_sum",
    "C87_named",
    "C87_vector",
    "C87_vector_2d",
    "C87_matrix_partial",
    "C87_matrix_refuted",
    "C87_matrix_2d_partial",
    "C87_matrix_2d_refuted",
    "C87_angle_partial",
    "C87_half_partial",
    "C87_angle_refuted"
   ],
   "note": "rotation-matrix and rotate-vector are proved in full (rotate-vector for vectors long enough, see C85). rotate-matrix is proved for 3 by 3 matrices and results; sizes are not checked (refuted), and in the plane the local product is made from the left (refuted). rotation-angle is proved for every axis except those in the xy plane at equal distance from x and y, for which it is proved to divide by zero for every angle."
  },
  {
   "property": "C88",
   "status": "partial",
   "theorems": [
    "C88_place",
    "C88_world",
    "C88_points",
    "C88_follow",
    "C88_transform_partial",
    "C88_transform_refuted",
    "C88_move_to_partial",
    "C88_move_to_refuted",
    "C88_translate",
    "C88_locate",
    "C88_rotate",
    "C88_rotate_refuted",
    "C88_orient",
    "C88_transformation",
    "C88_assoc_partial",
    "C88_assoc_refuted",
    "C88_assoc_at_partial",
    "C88_assoc_at_refuted",
    "C88_dissoc",
    "C88_clear_assoc",
    "C88_create",
    "C88_replace_refuted"
   ],
   "note": "proved for every history of the operations listed, with these exceptions, each refuted: :transform with respect to a frame that hangs on the moving one and has not been asked for its place since its last change; :move-to with :parent (or the parent itself) of coordinates that belong to something else, such as the constant world-coords; :assoc of a frame with one of its ancestors; :assoc with coordinates of a frame that hangs there already; :replace-coords of a cascaded-coords. :rotate-with-matrix wrt :world moves correctly but overwrites the matrix given (refuted). The object given to :transform must not share its rotation and position with the frame."
  },
  {
   "property": "C89",
   "status": "partial",
   "theorems": [
    "C89_subseq_partial",
    "C89_subseq_rest_partial",
    "C89_subseq_refuted",
    "C89_copy_partial",
    "C89_copy_refuted",
    "C89_reverse",
    "C89_nreverse_partial",
    "C89_nreverse_refuted",
    "C89_concatenate_partial",
    "C89_concatenate_refuted",
    "C89_coerce",
    "C89_coerce_back",
    "C89_fill_partial",
    "C89_fill_list",
    "C89_fill_refuted",
    "C89_map_partial",
    "C89_map_refuted",
    "C89_length_partial",
    "C89_elt_partial",
    "C89_elt_refuted"
   ],
   "note": "proved in full for lists and vectors (reverse, coerce, and subseq with an end also for arrays), except for: subseq of a list from its length on, filling bits with a number other than 0 and 1. For displaced arrays the code is wrong in copy-seq (whole vector), subseq without an end, concatenate and map (read on to the end of the vector), nreverse (offset missing on one side) and elt (offset missing); each is refuted by a witness and the theorem covers arrays that reach to the end or have no offset. A fill pointer is obeyed by length only."
  },
  {
   "property": "C90",
   "status": "proved",
   "theorems": [
    "C90_line",
    "C90_direction_refuted"
   ],
   "note": "C90_direction_refuted records something not claimed: the pixels depend on the direction in which the line is drawn."
  },
  {
   "property": "C91",
   "status": "partial",
   "theorems": [
    "C91_foot",
    "C91_distance_point",
    "C91_distance_point_refuted",
    "C91_distance_line_partial",
    "C91_distance_line_refuted",
    "C91_perpendicular_partial",
    "C91_perpendicular_refuted",
    "C91_intersection",
    "C91_intersection3_partial",
    "C91_intersection3_refuted",
    "C91_overlap",
    "C91_farthest"
   ],
   "note": "Over real numbers (no rounding). False as stated: the tests for parallel lines use absolute thresholds, so short segments that cross at right angles are taken to be parallel (distance 0.05 instead of 0; :parallel instead of the perpendicular), :intersection of parallel lines divides by zero, and so does the distance from a segment of no length. The partial theorems give the exact regions where the answers are right."
  },
  {
   "property": "C92",
   "status": "partial",
   "theorems": [
    "C92_homogeneous",
    "C92_pyramid_partial",
    "C92_pyramid_refuted",
    "C92_pyramid_division_refuted"
   ],
   "note": "Over real numbers (no rounding). homo-viewport-clip is right in all cases (C92_homogeneous); viewportclip is right when both points are in front of the eye (z > 0) and otherwise can show points that are not on the segment or divide by zero."
  },
  {
   "property": "C93",
   "status": "partial",
   "theorems": [
    "C93_smallest",
    "C93_intersection",
    "C93_intersection_p",
    "C93_inner",
    "C93_union",
    "C93_extreme",
    "C93_corners",
    "C93_boxtest_refuted",
    "C93_plane",
    "C93_plane_refuted"
   ],
   "note": "Over real numbers (no rounding). False as stated in two places: :boxtest of a polygon with a tolerance grows the box it is given (C93_boxtest_refuted: the same question has another answer the second time), and :foot of a plane whose normal vector does not have length one is not on the plane (C93_plane_refuted)."
  },
  {
   "property": "C94",
   "status": "partial",
   "theorems": [
    "C94_area",
    "C94_centroid",
    "C94_normal",
    "C94_convexp",
    "C94_convexp_refuted",
    "C94_insidep_partial",
    "C94_insidep_refuted"
   ],
   "note": "Over real numbers (no rounding). Area, centre of gravity and normal are proved in full. False as stated in two places: :set-convexp looks at the corners only and marks a five-pointed star convex, after which one of its own vertices is :outside (C94_convexp_refuted; C94_convexp says what it decides, and that convex polygons are marked); and a point a tenth beyond the tip of a slim triangle is :inside (C94_insidep_refuted; C94_insidep_partial has the points at least the tolerance away from the lines of the edges, the points of the edges, and that :outside and :border are right)."
  },
  {
   "property": "C95",
   "status": "partial",
   "theorems": [
    "C95_round_partial",
    "C95_near",
    "C95_undefined",
    "C95_truncate_partial",
    "C95_integers",
    "C95_refuted"
   ],
   "note": "False as stated, because eusfloat_to_big takes a single-precision float and converts through a C int (C95_refuted). C95_round_partial has all results of at most 24 binary digits below 2^31 (and between 2^86 and 2^94); C95_near bounds the error of all others below 2^31-128; C95_undefined shows that there is no defined result from 2^31 to 2^61. C95_truncate_partial has the arguments that are single-precision numbers. Infinities and NaNs are not modelled."
  },
  {
   "property": "C96",
   "status": "partial",
   "theorems": [
    "C96_mod_partial",
    "C96_mod_unique",
    "C96_mod_refuted",
    "C96_max_min_partial",
    "C96_max_refuted"
   ],
   "note": "Remainders are proved for integers of one word and for floats (and fixnums of at most 51 digits mixed with them); mod of longer integers looks at one word only (C96_mod_refuted). Extremes are proved for fixnums and for numbers of at most 51 digits; bignums, and large fixnums beside floats, are returned as rounded floats (C96_max_refuted). Ratios, infinities and NaNs are not modelled."
  },
  {
   "property": "C97",
   "status": "partial",
   "theorems": [
    "C97_pieces",
    "C97_format_partial",
    "C97_missing",
    "C97_cut",
    "C97_width",
    "C97_refuted"
   ],
   "note": "C97_pieces says that the other theorems cover all control strings except those with more than ten parameters or a parameter of 2^31 or more, which are undefined. What the printer writes for an object and sprintf for a float are given with the argument. False (C97_refuted), and therefore left out of C97_format_partial: ~n% writes n+1 newlines; objects whose :prin1 method calls format are padded too far; negative bignums with leading zeros get a field one too narrow; ~,3f writes its parameter out."
  },
  {
   "property": "C98",
   "status": "partial",
   "theorems": [
    "C98_rotation_partial",
    "C98_product",
    "C98_algebra",
    "C98_refuted"
   ],
   "note": "Over real numbers (no rounding). C98_rotation_partial has angles from 0 to 2 pi; negative angles turn the wrong way (C98_refuted; a comment in the source restricts the angle). Products, conjugates and norms are proved in full; :inverse-quaternion is the inverse for norm one only, because it divides by the norm instead of its square (C98_refuted)."
  },
  {
   "property": "C99",
   "status": "partial",
   "theorems": [
    "C99_infix_partial",
    "C99_refuted"
   ],
   "note": "C99_infix_partial is for all expressions whose literal exponents are not negative and whose arguments after the first begin with a name or a number (arguments are not separated). False beyond: a negative literal exponent gives 1, and one token after a complete expression is thrown away without an error, so %(x -1) is x (C99_refuted). Functions without side effects: a shared call is made once, a squared call twice (C99_refuted)."
  },
  {
   "property": "C100",
   "status": "partial",
   "theorems": [
    "C100_lookup_partial",
    "C100_send_partial",
    "C100_super_partial",
    "C100_slots_partial",
    "C100_send_if_found_partial",
    "C100_refuted"
   ],
   "note": "Proved for all sequences of definitions in which no class is defined anew (methods may be redefined freely). False beyond: a class defined anew leaves its subclasses with the old places of slots, or makes the superclasses a circle and the search endless; send-if-found crashes on a forwarded message; a global variable of an interpreted method is captured by a slot of a subclass (C100_refuted)."
  },
  {
   "property": "C101",
   "status": "partial",
   "theorems": [
    "C101_edit_partial",
    "C101_keys",
    "C101_history_partial",
    "C101_refuted"
   ],
   "note": "Editing is proved for all sequences of keys without refreshing (^G, ^R), for bytes below 128 and lines not empty at the end; history for all sequences of commands, for numbers still kept and patterns not only in the oldest entry. False beyond: after refreshing the keys act at the end of the line while the cursor stays; an empty line counts as given up; bytes above 127 are an error; a number no longer kept gives another command; the oldest entry is not searched (C101_refuted)."
  },
  {
   "property": "C102",
   "status": "partial",
   "theorems": [
    "C102_rpy_matrix",
    "C102_euler_matrix",
    "C102_rpy_angle",
    "C102_rpy_back",
    "C102_rpy_choice",
    "C102_euler_angle_partial",
    "C102_euler_back_partial",
    "C102_euler_choice_partial",
    "C102_euler_angle_refuted"
   ],
   "note": "In exact arithmetic. Both lists of rpy-angle make every rotation again, gimbal lock among them, and the first is the angles it was made with. euler-angle has the same, except where the z axis is tilted by less than 1e-5 but not by zero: there the first angle is taken as 0 and the matrix made is another one (C102_euler_angle_refuted)."
  },
  {
   "property": "C103",
   "status": "partial",
   "theorems": [
    "C103_quickhull_partial",
    "C103_quickhull_not_flat",
    "C103_convex",
    "C103_same_hull_partial",
    "C103_refuted"
   ],
   "note": "Any normal, points of a plane with that normal, exact arithmetic. Proved for all lists of points that are not all on one line, and for points on a line if the coordinate looked at differs; where it is the same for all, the result is one point twice (C103_refuted). Points in the middle of a side may be among the corners (C103_middle)."
  },
  {
   "property": "C104",
   "status": "partial",
   "theorems": [
    "C104_count",
    "C104_calls",
    "C104_all_partial",
    "C104_deleted_partial",
    "C104_refuted"
   ],
   "note": "run-count and the bound on calls are proved for all interleavings; that no interval is lost, for those without a tick between counting what is missed and clearing the semaphore. Such a tick is lost, a deleted timer is called once more, and an interval below half a tick is never called (C104_refuted). After deletion there is at most one more call, and the thread ends (C104_deleted_partial)."
  },
  {
   "property": "C105",
   "status": "partial",
   "theorems": [
    "C105_load_partial",
    "C105_compile_partial",
    "C105_recompile_partial",
    "C105_refuted"
   ],
   "note": "Proved for all systems in which no module needs itself for loading, and for reasons of recompilation that come before the module in the description. Modules that need each other make the planning recur for ever, and a module before its reason is not recompiled (C105_refuted). Reading the description (make-modules) and carrying out the plan are not modelled."
  },
  {
   "property": "C106",
   "status": "partial",
   "theorems": [
    "C106_values_partial",
    "C106_accepts_partial",
    "C106_store_true",
    "C106_count",
    "C106_split",
    "C106_flag_name",
    "C106_refuted"
   ],
   "note": "Proved for all declarations and command lines where :read is not given to an action without value; there every occurrence is an error (C106_refuted). Functions given as action, check or reader are modelled as functions without effects."
  },
  {
   "property": "C107",
   "status": "partial",
   "theorems": [
    "C107_part",
    "C107_area_partial",
    "C107_bends",
    "C107_dropped",
    "C107_straight_partial",
    "C107_refuted"
   ],
   "note": "Exact arithmetic (threshold 0). Area proved for circuits in which no corner is followed by itself; with such corners one can be lost altogether. That no corner of the result is on a line with its neighbours is proved for all but the first and the last two, if the circuit does not turn back on a line; corners on a line around the end of the list stay (C107_refuted)."
  },
  {
   "property": "C108",
   "status": "partial",
   "theorems": [
    "C108_between_partial",
    "C108_corners_partial",
    "C108_refuted"
   ],
   "note": "Exact arithmetic (threshold 0). Proved for all lists of points at different places; a point given twice is reported together with any third point (C108_refuted)."
  }
 ]
}