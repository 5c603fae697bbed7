{
 "claims": [
  {
   "property": "C01",
   "status": "proved",
   "theorems": [
    "skiplist_finite_map",
    "skiplist_last_write"
   ],
   "note": "Refinement of the pointer structure to a finite map for every history, seed and strict weak order on keys; plus the last-write reading."
  },
  {
   "property": "C02",
   "status": "proved",
   "theorems": [
    "skiplist_enumeration",
    "skiplist_finite_map"
   ],
   "note": ""
  },
  {
   "property": "C03",
   "status": "proved",
   "theorems": [
    "skiplist_seed_independent"
   ],
   "note": ""
  },
  {
   "property": "C04",
   "status": "proved",
   "theorems": [
    "iterator_enumerates",
    "iterator_seek"
   ],
   "note": ""
  },
  {
   "property": "C05",
   "status": "partial",
   "theorems": [
    "iterator_end_refuted",
    "iterator_end_partial"
   ],
   "note": "False of the code on every map: the Next after ok=false panics (tail.next is nil). What holds: no entry is ever returned after the end."
  },
  {
   "property": "C06",
   "status": "partial",
   "theorems": [
    "iterator_live_refuted",
    "iterator_live_partial"
   ],
   "note": "False of the code: deleting the current key and its successor makes Next return the deleted successor. Proved: ideal cursor behaviour as long as the key under the iterator is not deleted."
  },
  {
   "property": "C07",
   "status": "partial",
   "theorems": [
    "skiplist_nan_refuted",
    "skiplist_nan_lost_refuted",
    "skiplist_ordered_keys_partial"
   ],
   "note": "False of the code with NaN keys. Proved for every strict weak order."
  },
  {
   "property": "C08",
   "status": "proved",
   "theorems": [
    "heights_in_range",
    "splitmix_bijective",
    "seeds_distinct"
   ],
   "note": ""
  },
  {
   "property": "C09",
   "status": "proved",
   "theorems": [
    "ordmap_finite_map"
   ],
   "note": ""
  },
  {
   "property": "C10",
   "status": "proved",
   "theorems": [
    "ordmap_range",
    "ordmap_range_visits",
    "ordmap_range_panic"
   ],
   "note": "For callbacks with arbitrary state that may delete the visited key, and for callbacks that panic."
  },
  {
   "property": "C100",
   "status": "proved",
   "theorems": [
    "gcm_authentic",
    "gcm_tamper"
   ],
   "note": "the tag function is a parameter"
  },
  {
   "property": "C101",
   "status": "proved",
   "theorems": [
    "ctr_accepts_all",
    "ctr_malleable",
    "cbc_malleable",
    "ctr_iv_reuse"
   ],
   "note": ""
  },
  {
   "property": "C102",
   "status": "proved",
   "theorems": [
    "key_schedule_exact",
    "key_schedule_nul"
   ],
   "note": ""
  },
  {
   "property": "C103",
   "status": "partial",
   "theorems": [
    "custom_refuted",
    "custom_instant_partial",
    "custom_fields",
    "custom_of_fields",
    "custom_sub_partial"
   ],
   "note": "false as stated: the seconds wrap when they do not fit into an int64 counted from year 1. Proved for all other arguments, with order and distance; Unix and Nanosecond are exact for all whose carried seconds fit an int64"
  },
  {
   "property": "C104",
   "status": "partial",
   "theorems": [
    "cmd_wd_exact",
    "cmd_exact",
    "cmd_each_directory_once_partial",
    "cmd_permissions_refuted"
   ],
   "note": "false as stated: a directory that cannot be entered has the command run in the start directory, one that cannot be read has it run twice. Proved: what happens in any tree, exactly, and the claim for trees whose directories can be entered and read"
  },
  {
   "property": "C105",
   "status": "proved",
   "theorems": [
    "linked_list_exact",
    "linked_list_exact_complete",
    "linked_list_len_counts",
    "linked_list_panics"
   ],
   "note": "refinement in both directions: every execution is one of the specification, every choice of reuse in the specification is an execution"
  },
  {
   "property": "C106",
   "status": "proved",
   "theorems": [
    "conv_conc_latest",
    "conv_conc_no_race",
    "conv_conc_serial",
    "conv_conc_value",
    "conv_conc_answers"
   ],
   "note": ""
  },
  {
   "property": "C107",
   "status": "partial",
   "theorems": [
    "conv_reentrant_write_hangs",
    "conv_deadlock_forever",
    "conv_nested_into_refuted",
    "conv_no_deadlock_partial",
    "conv_no_deadlock_readers"
   ],
   "note": "false as stated: Into holds the read lock while the converter runs. A converter that registers never gets past the call; a converter that calls Into hangs for ever, with all of convx, if another goroutine calls Register in between. Proved free of deadlock when converters only compute, and from the moment on at which nobody registers any more; C174 proves that everything then comes to its end. The lock of this model keeps everybody out while a writer waits; C191 has the code of RWMutex, with which the same hangs unless the inner call gets the place of a reader that was released before"
  },
  {
   "property": "C108",
   "status": "partial",
   "theorems": [
    "lazy_reentrant_hangs",
    "lazy_reentrant_never",
    "lazy_get_outcome",
    "lazy_plain_same",
    "lazy_plain_once",
    "lazy_once"
   ],
   "note": "false as stated: the constructor runs with the mutex of the sync.Once held; that goroutine and every other Get wait for ever. Without re-entrance the claim is C42, and the two models make the same steps (lazy_plain_same)"
  },
  {
   "property": "C109",
   "status": "proved",
   "theorems": [
    "close_conc_answers",
    "close_conc_all",
    "close_conc_list",
    "close_conc_panic"
   ],
   "note": ""
  },
  {
   "property": "C11",
   "status": "partial",
   "theorems": [
    "ordmap_range_clear_refuted",
    "ordmap_range_clear_partial"
   ],
   "note": "False of the code on every non-empty map: the remaining old keys are visited with zero values, then a phantom zero key, then a nil dereference. Proved for a callback that Clears and stops."
  },
  {
   "property": "C110",
   "status": "partial",
   "theorems": [
    "close_reentrant_hangs",
    "close_no_deadlock_partial"
   ],
   "note": "false as stated: such a closer never gets past the call, and the manager is dead from then on. Proved free of deadlock when closers do not call the manager"
  },
  {
   "property": "C111",
   "status": "partial",
   "theorems": [
    "ordmap_range_live_refuted",
    "ordmap_range_live_partial",
    "ordmap_range_live_ends"
   ],
   "note": "false as stated: a callback that deletes the key it visits and then the next one is called with the deleted key and a zero value. Proved for callbacks that after deleting the key they visit only read; and Range ends if nothing is set above the key visited"
  },
  {
   "property": "C112",
   "status": "partial",
   "theorems": [
    "pool_handlers_project",
    "pool_handler_runs",
    "pool_handler_stop_partial",
    "pool_handler_stop_refuted"
   ],
   "note": "false as stated for Stop: of two handlers that both stop the pool one waits for ever. Proved: no pool behaviour is new; handlers that call Run never wait for anybody; Stop from a handler can be carried through when no other Stop is under way"
  },
  {
   "property": "C113",
   "status": "partial",
   "theorems": [
    "decoupler_callbacks_partial",
    "decoupler_next_in_view_refuted",
    "decoupler_drop_retry_refuted"
   ],
   "note": "false as stated: Next called from a view shows the same message again and the next Next hangs, and a drop that writes again never returns. Proved equal to the ideal queue when views do not call Next and, after a drop, the queue is not written to while it has fewer than size - 1 messages"
  },
  {
   "property": "C114",
   "status": "proved",
   "theorems": [
    "decoupler_drop_oldest"
   ],
   "note": "drop([]) would call itself for ever, so messages are non-empty"
  },
  {
   "property": "C115",
   "status": "partial",
   "theorems": [
    "slice_callbacks_partial",
    "slice_index_callbacks_partial",
    "slice_filter_callbacks_partial",
    "slice_callbacks_in_place",
    "slice_delete_in_callback_refuted",
    "slice_callback_capacity_refuted",
    "slice_filter_clear_refuted"
   ],
   "note": "false as stated: after a Delete in the callback one element is skipped and another shown twice, after Push and Set what is shown depends on the capacity, and Filter panics after Clear. Proved for callbacks that call Get, Len, Push and Extend, and for those that only change elements in place (they are shown the live elements)"
  },
  {
   "property": "C116",
   "status": "proved",
   "theorems": [
    "ctr_exact",
    "ctr_blocks_differ",
    "gcm_exact",
    "gcm_blocks_differ",
    "cbc_exact"
   ],
   "note": "for every cipher, hash and tag function with the right lengths; for ctr_blocks_differ, data below 2^132 bytes"
  },
  {
   "property": "C117",
   "status": "partial",
   "theorems": [
    "syncmap_bad_key_partial",
    "syncmap_bad_key_refuted"
   ],
   "note": "false as stated: the methods have no deferred Unlock, so after such a Set or Delete no call ever gets the lock, and after such a Get or Has no Set, Delete or Clear does. Proved: linearizability and absence of races whatever the keys, progress while nobody has panicked, and of the reading calls while only reading calls have"
  },
  {
   "property": "C118",
   "status": "partial",
   "theorems": [
    "linked_list_iterate_live_partial",
    "linked_list_iterate_append_endless",
    "linked_list_iterate_live_refuted"
   ],
   "note": "false as stated: a node that the callback removes is handed out again by the pool, so a callback that moves its element to the end stops the walk, and one that moves it to the front makes it go round for ever. Proved for callbacks that stay away from the last position and change nothing more after removing the element they were called on"
  },
  {
   "property": "C119",
   "status": "partial",
   "theorems": [
    "lists_interchangeable_partial",
    "slice_list_iterate_snapshot_partial",
    "lists_interchangeable_refuted"
   ],
   "note": "false as stated: the linked list loses what is appended after the removal of its last element, and a callback that appends is called once per element by the slice list and for ever by the linked one. Proved for histories away from the last position with plain callbacks, and for the slice list with callbacks that append"
  },
  {
   "property": "C12",
   "status": "partial",
   "theorems": [
    "linked_queue_fifo_refuted",
    "linked_queue_recycling_endless",
    "linked_queue_fifo_partial"
   ],
   "note": "False of the code: Dequeue returns the element after the front one and panics on the last; a recycled node closes the chain into a ring. Proved for histories without a Dequeue of a non-empty queue."
  },
  {
   "property": "C120",
   "status": "proved",
   "theorems": [
    "splitmix_outputs",
    "root_outputs",
    "heights_exact",
    "toss_fair",
    "height_one_half"
   ],
   "note": "the generator is the published one (splitmix_outputs; the published vector is the example sm_vector); fairness counts the seeds"
  },
  {
   "property": "C121",
   "status": "proved",
   "theorems": [
    "skiplist_levels"
   ],
   "note": "for every history and every seed"
  },
  {
   "property": "C122",
   "status": "proved",
   "theorems": [
    "skiplist_search_cost",
    "search_cost_counts"
   ],
   "note": "the exact number, and the bound: smaller keys plus 16; search_cost_counts says that the counting search is the search"
  },
  {
   "property": "C123",
   "status": "partial",
   "theorems": [
    "search_cost_average_partial",
    "search_cost_average_refuted",
    "records_total",
    "max_total",
    "ht_tosses"
   ],
   "note": "false as stated: with 16 levels the average number of comparisons is at least n/2^15. Proved: at most 2k+3+n/2^15 for maps of up to 2^(k+1) keys. The average is over independent fair tosses, which is not the distribution over the seeds of the generator"
  },
  {
   "property": "C124",
   "status": "proved",
   "theorems": [
    "iterators_exact",
    "iterators_exact_panic"
   ],
   "note": "no side condition on the history; the specification contains the defects of C06: deleted entries are shown, and after Clear an entry of zero values that was never stored"
  },
  {
   "property": "C125",
   "status": "proved",
   "theorems": [
    "integer_to_nearest_float",
    "float_to_nearest_float",
    "float_result_of_type",
    "float_to_integer_truncates"
   ],
   "note": "values are compared as whole numbers of units of 2^-1074; what a conversion to an integer gives when the truncated value does not fit is up to the implementation and left open, as in the language"
  },
  {
   "property": "C126",
   "status": "proved",
   "theorems": [
    "ordmap_programs_exact",
    "ordmap_programs_no_panic",
    "ordmap_programs_bound_irrelevant"
   ],
   "note": "no side condition on the callbacks; the specification contains the defects of C111: deleted keys are visited with the zero value, and after Clear a zero key"
  },
  {
   "property": "C127",
   "status": "partial",
   "theorems": [
    "sleeper_race_refuted",
    "sleeper_cancel_race_refuted",
    "sleeper_race_exact",
    "sleeper_race_free_partial"
   ],
   "note": "the natural statement is false of the code; proved: which accesses race, exactly, and freedom from races if Wakeups do not overlap and no sleeper is between the flag and its read of s.ctx"
  },
  {
   "property": "C128",
   "status": "partial",
   "theorems": [
    "pool_worker_race_exact",
    "pool_worker_race_free_partial",
    "pool_worker_race_refuted",
    "pool_stop_race_exact",
    "pool_stop_race_free_partial",
    "pool_stop_race_refuted"
   ],
   "note": "false of the code with preheated workers and for concurrent Stops; proved: the races, exactly, and none without preheat and with one goroutine calling Stop"
  },
  {
   "property": "C129",
   "status": "proved",
   "theorems": [
    "decoupler_sequential_exact",
    "decoupler_sequential_laws",
    "decoupler_reorders_refuted"
   ],
   "note": "the bound on the number of tries is in the statement; beyond it see decoupler_fifo_for_ever_refuted (C67)"
  },
  {
   "property": "C13",
   "status": "proved",
   "theorems": [
    "linked_queue_dequeue_exact",
    "linked_queue_exact_no_recycling",
    "linked_queue_exact_recycling"
   ],
   "note": "Exact behaviour for all lengths and all pool choices; all histories when no node is recycled; all histories and pool choices while the last element is not dequeued."
  },
  {
   "property": "C130",
   "status": "partial",
   "theorems": [
    "pool_run_returns",
    "pool_job_handled",
    "pool_job_refused",
    "pool_stop_returns_partial",
    "pool_stop_returns_refuted",
    "pool_drains_partial",
    "pool_drains_refuted",
    "pool_shutdown_partial"
   ],
   "note": "Run and the jobs: as stated; a Stop call may hang if two goroutines call Stop, and preheated workers may never end, so those two parts are for one caller of Stop and no preheat"
  },
  {
   "property": "C131",
   "status": "partial",
   "theorems": [
    "sleeper_wakeup_returns",
    "sleeper_timed_returns",
    "sleeper_wakes_partial",
    "sleeper_returns_partial",
    "sleeper_wakes_refuted",
    "sleeper_returns_refuted"
   ],
   "note": "the part about Wakeup is false of the code: a Wakeup between the flag and the read of s.ctx is lost, and overlapping Wakeups can leave a sleeper nobody can wake; proved for a sleeper that waits and Wakeups one after the other"
  },
  {
   "property": "C132",
   "status": "partial",
   "theorems": [
    "close_returns_partial",
    "close_returns_refuted"
   ],
   "note": "false of the code for closers that call their manager; proved for all others"
  },
  {
   "property": "C133",
   "status": "proved",
   "theorems": [
    "kill_notifies",
    "kill_again_crashes"
   ],
   "note": ""
  },
  {
   "property": "C134",
   "status": "partial",
   "theorems": [
    "match_exact",
    "passhash_string_exact",
    "passhash_string_inj_partial",
    "passhash_string_inj_refuted"
   ],
   "note": "injectivity in the parameter is false of the code for unknown parameters; proved for known ones"
  },
  {
   "property": "C135",
   "status": "partial",
   "theorems": [
    "bcrypt_accepts_exact",
    "bcrypt_base64_text",
    "bcrypt_base64_salt",
    "bcrypt_text_exact",
    "bcrypt_text_decrypt",
    "bcrypt_text_malleable_refuted"
   ],
   "note": "uniqueness is false of the code; bcrypt_accepts_exact says exactly which texts are accepted; the Blowfish rounds are a parameter"
  },
  {
   "property": "C136",
   "status": "proved",
   "theorems": [
    "lazy_get_returns",
    "lazy_get_hangs"
   ],
   "note": ""
  },
  {
   "property": "C137",
   "status": "partial",
   "theorems": [
    "lock_someone_enters",
    "lock_returns_partial",
    "lock_returns_refuted"
   ],
   "note": "that every call returns is false of the code; proved when no new calls come"
  },
  {
   "property": "C138",
   "status": "partial",
   "theorems": [
    "lock_write_refuted",
    "lock_write_stuck"
   ],
   "note": "false of the code; for callbacks that leave the word alone see C45"
  },
  {
   "property": "C139",
   "status": "proved",
   "theorems": [
    "rwmutex_excludes",
    "rw_counters",
    "syncmap_rw_linearizable",
    "syncmap_rw_no_race",
    "syncmap_rw_exclusion"
   ],
   "note": ""
  },
  {
   "property": "C14",
   "status": "partial",
   "theorems": [
    "linked_stack_lifo_refuted",
    "linked_stack_single_pop_panics",
    "linked_stack_lifo_partial"
   ],
   "note": "False of the code: Pop returns the element below the top. Proved for histories that never Pop a non-empty stack."
  },
  {
   "property": "C140",
   "status": "proved",
   "theorems": [
    "rwmutex_returns",
    "syncmap_returns",
    "syncmap_naive_lock_refuted"
   ],
   "note": "syncmap_naive_lock_refuted is the counterexample for the lock that merely excludes"
  },
  {
   "property": "C141",
   "status": "proved",
   "theorems": [
    "time_div_exact",
    "time_div_refuted",
    "time_truncate_floor",
    "truncate_all",
    "truncate_every"
   ],
   "note": "time_div_refuted is the exception at the very first second; truncate_every says what Truncate answers there, and everywhere else"
  },
  {
   "property": "C142",
   "status": "partial",
   "theorems": [
    "decoupler_readers_serial_partial",
    "decoupler_readers_refuted",
    "decoupler_readers_lose_refuted",
    "decoupler_readers_race_refuted"
   ],
   "note": "false of the code with two readers at once; proved for readers one at a time"
  },
  {
   "property": "C143",
   "status": "partial",
   "theorems": [
    "decoupler_write_alone_partial",
    "decoupler_write_waits_refuted",
    "decoupler_write_bounded_refuted"
   ],
   "note": "false of the code in general; proved for a writer alone"
  },
  {
   "property": "C144",
   "status": "proved",
   "theorems": [
    "skiplist_any_keys",
    "skiplist_any_set_get",
    "skiplist_nan_calls",
    "skiplist_nan_entries"
   ],
   "note": ""
  },
  {
   "property": "C145",
   "status": "partial",
   "theorems": [
    "ordmap_nan_get",
    "ordmap_nan_index_refuted",
    "ordmap_nan_index_partial",
    "ordmap_nan_keys"
   ],
   "note": "the statement about Keys, Values and Len is false of the code with NaN keys"
  },
  {
   "property": "C146",
   "status": "proved",
   "theorems": [
    "sort_func_contract",
    "sort_stable_func_contract",
    "sort_stable_func_exact",
    "go_sorts_are_sorted",
    "sort_func_source",
    "intersection_code",
    "intersection_code_small"
   ],
   "note": ""
  },
  {
   "property": "C147",
   "status": "partial",
   "theorems": [
    "sort_stability_refuted",
    "sort_stability_partial",
    "sort_small_exact",
    "sort_nan_refuted"
   ],
   "note": "false of the code from 13 elements on, and with NaN"
  },
  {
   "property": "C148",
   "status": "proved",
   "theorems": [
    "aes_inverse",
    "aes_injective",
    "aes_contract_holds",
    "aesx_roundtrip"
   ],
   "note": ""
  },
  {
   "property": "C149",
   "status": "proved",
   "theorems": [
    "ghash_almost_universal",
    "gcm_forgery_bound",
    "gcm_single_block_tamper"
   ],
   "note": ""
  },
  {
   "property": "C15",
   "status": "proved",
   "theorems": [
    "linked_stack_exact"
   ],
   "note": "Exact behaviour for every history and pool behaviour."
  },
  {
   "property": "C150",
   "status": "partial",
   "theorems": [
    "text_to_float64_partial",
    "text_to_float64_hex_partial",
    "text_to_float64_exact",
    "text_to_float64_hex_exact",
    "exponent_taken_unique",
    "text_to_infinity",
    "text_to_nan",
    "text_otherwise_zero",
    "text_underscores",
    "text_error_refuted",
    "text_long_exponent_refuted"
   ],
   "note": "false for texts with an exponent of 100000 or more and more than 7000 bytes; the _exact theorems say what every numeral becomes, long exponents being cut to their first five digits"
  },
  {
   "property": "C151",
   "status": "proved",
   "theorems": [
    "float_text_float",
    "float_text_shortest",
    "float_text_special"
   ],
   "note": ""
  },
  {
   "property": "C152",
   "status": "partial",
   "theorems": [
    "float32_text_shortest_refuted",
    "float_text_float"
   ],
   "note": "false of the code: float32 is written as float64"
  },
  {
   "property": "C153",
   "status": "proved",
   "theorems": [
    "registry_over_builtin"
   ],
   "note": ""
  },
  {
   "property": "C154",
   "status": "proved",
   "theorems": [
    "demo_output"
   ],
   "note": ""
  },
  {
   "property": "C155",
   "status": "proved",
   "theorems": [
    "integer_float_exact"
   ],
   "note": ""
  },
  {
   "property": "C156",
   "status": "proved",
   "theorems": [
    "text_to_float32_exact"
   ],
   "note": ""
  },
  {
   "property": "C157",
   "status": "proved",
   "theorems": [
    "syncmap_any_key",
    "syncmap_nan_key"
   ],
   "note": ""
  },
  {
   "property": "C158",
   "status": "proved",
   "theorems": [
    "pool_goexit_project",
    "pool_goexit_counted",
    "pool_goexit_dead"
   ],
   "note": ""
  },
  {
   "property": "C159",
   "status": "proved",
   "theorems": [
    "slice_history_exact",
    "slice_split_exact"
   ],
   "note": ""
  },
  {
   "property": "C16",
   "status": "partial",
   "theorems": [
    "deque_refuted",
    "deque_reuse_loses_refuted",
    "deque_partial"
   ],
   "note": "False of the code once the deque has been emptied (stale end pointer: elements lost or delivered twice). Proved until then."
  },
  {
   "property": "C160",
   "status": "proved",
   "theorems": [
    "intersection_exact",
    "intersection_complete"
   ],
   "note": ""
  },
  {
   "property": "C161",
   "status": "proved",
   "theorems": [
    "text_underscores_exact"
   ],
   "note": ""
  },
  {
   "property": "C162",
   "status": "proved",
   "theorems": [
    "sha256_fips",
    "sha256_fips_exact"
   ],
   "note": ""
  },
  {
   "property": "C163",
   "status": "proved",
   "theorems": [
    "aes_fips_exact",
    "aes_fips_inverse"
   ],
   "note": ""
  },
  {
   "property": "C164",
   "status": "proved",
   "theorems": [
    "ctr_standard",
    "gcm_standard",
    "cbc_standard",
    "ctr_standard_back",
    "gcm_standard_back",
    "cbc_standard_back",
    "gcm_standard_refuses"
   ],
   "note": ""
  },
  {
   "property": "C165",
   "status": "proved",
   "theorems": [
    "sort_any_comparison",
    "sort_stable_any_comparison",
    "sort_comes_back",
    "sort_pure_same",
    "sort_panic_restores_refuted"
   ],
   "note": ""
  },
  {
   "property": "C166",
   "status": "proved",
   "theorems": [
    "sort_comparisons",
    "sort_stable_comparisons",
    "sort_in_order",
    "sort_any_comparison"
   ],
   "note": ""
  },
  {
   "property": "C167",
   "status": "proved",
   "theorems": [
    "pool_mu_exclusive",
    "pool_mu_refines",
    "pool_mu_realised",
    "pool_mu_released",
    "pool_mu_no_panic",
    "pool_mu_exactly_once",
    "pool_mu_handled_or_running",
    "pool_mu_workers",
    "pool_mu_bounded",
    "pool_mu_stopped",
    "pool_mu_workers_always_refuted"
   ],
   "note": ""
  },
  {
   "property": "C168",
   "status": "proved",
   "theorems": [
    "linked_stack_recovered",
    "linked_queue_recovered_fresh",
    "linked_queue_recovered_refuted",
    "linked_queue_element_returns",
    "linked_list_recovered",
    "ring_recovered",
    "ring_accepts_at_most",
    "slice_list_recovered",
    "slice_recovered",
    "slice_panic_keeps",
    "slice_filter_atomic_refuted",
    "bitset_recovered",
    "decoupler_recovered",
    "decoupler_redelivers",
    "decoupler_recovered_fifo"
   ],
   "note": ""
  },
  {
   "property": "C169",
   "status": "proved",
   "theorems": [
    "linked_stack_zero",
    "linked_list_zero",
    "linked_queue_zero",
    "deque_zero",
    "ring_zero",
    "slice_stack_zero",
    "slice_list_zero",
    "skiplist_zero",
    "skiplist_zero_cleared",
    "ordmap_zero",
    "syncmap_zero_as_new",
    "syncmap_zero_set_after_clear",
    "syncmap_zero_set_panics",
    "syncmap_zero_blocked",
    "pool_zero",
    "sleeper_zero",
    "decoupler_zero",
    "lazy_panic_refuted",
    "pool_get_without_init",
    "syncpool_zero"
   ],
   "note": "BitSet, CloseManager, Differ and Option: New returns the zero value, so their theorems start there."
  },
  {
   "property": "C17",
   "status": "proved",
   "theorems": [
    "deque_until_emptied",
    "deque_pushes_never_panic"
   ],
   "note": "Refinement over any number of chunks, any recycling."
  },
  {
   "property": "C170",
   "status": "partial",
   "theorems": [
    "deque_stack_new_nodes",
    "deque_stack_small",
    "deque_stack_refuted",
    "deque_queue_once",
    "deque_queue_once_small",
    "deque_queue_once_refuted"
   ],
   "note": "false as stated: emptied from the other end it stays empty for ever, and a recycled node keeps its old neighbours, so that a stack of 65 at the back or of two at the front panics or gives a zero value after it was emptied. Proved within those bounds, which are the best possible, and for any size when no node is recycled"
  },
  {
   "property": "C171",
   "status": "partial",
   "theorems": [
    "decoupler_bytes_refine_partial",
    "decoupler_bytes_complete_partial",
    "decoupler_bytes_delivered_partial",
    "decoupler_view_memory_partial",
    "decoupler_view_stable_partial",
    "decoupler_bytes_race_free_partial",
    "decoupler_bytes_in_bounds_partial",
    "decoupler_kept_view_refuted"
   ],
   "note": "as long as the write counter has been incremented at most 2^64 - 2 times, as in C68; callbacks do not keep the slice"
  },
  {
   "property": "C172",
   "status": "partial",
   "theorems": [
    "cmd_lost_chain",
    "cmd_wd_ends",
    "cmd_lost_refuted"
   ],
   "note": "false as stated: without a way back the process gets ever deeper and never runs its command in two directories side by side; if the start cannot be searched it panics. Proved: where the commands are run then, that the program ends in every other case, and by cmd_wd_exact what it does with a way back"
  },
  {
   "property": "C173",
   "status": "proved",
   "theorems": [
    "decoupler_room_order",
    "decoupler_room_first_try",
    "decoupler_room_wait_free",
    "decoupler_room_real_time",
    "decoupler_room_live",
    "decoupler_room_tight_refuted",
    "decoupler_none_refuted"
   ],
   "note": ""
  },
  {
   "property": "C174",
   "status": "proved",
   "theorems": [
    "conv_program_ends",
    "conv_program_no_infinite",
    "conv_readers_end",
    "conv_self_into_refuted"
   ],
   "note": "no fairness is assumed; finitely many goroutines. For converters that call convx only after the last registration, and only if the calls would end on their own (refuted for a converter that converts the type it is registered for)"
  },
  {
   "property": "C175",
   "status": "proved",
   "theorems": [
    "close_program_ends",
    "close_program_no_infinite",
    "close_program_all_return",
    "close_program_all_return_refuted"
   ],
   "note": "no fairness is assumed; finitely many goroutines call the manager. The second end, a closer that calls the manager it is in, does occur (close_program_all_return_refuted)"
  },
  {
   "property": "C176",
   "status": "proved",
   "theorems": [
    "syncmap_calls_end",
    "syncmap_infinite_calls"
   ],
   "note": "no fairness is assumed; at most 2^30 goroutines, the most that sync.RWMutex allows, on its code"
  },
  {
   "property": "C177",
   "status": "proved",
   "theorems": [
    "slice_plain_callbacks",
    "slice_quiet_callbacks",
    "linked_iterate_plain",
    "decoupler_plain_callbacks",
    "syncmap_plain_keys"
   ],
   "note": "relates the models with callbacks that call back, or panic, or odd keys, to the plain ones; slice_quiet_callbacks and decoupler_plain_callbacks are for calls that return"
  },
  {
   "property": "C178",
   "status": "proved",
   "theorems": [
    "lazy_get_bounded",
    "lazy_calls_end",
    "lazy_infinite_calls"
   ],
   "note": "no fairness is assumed; constructors that call Get themselves are in C108"
  },
  {
   "property": "C179",
   "status": "partial",
   "theorems": [
    "pool_run_exact",
    "pool_refused_partial",
    "pool_refused_refuted"
   ],
   "note": "false as stated: a worker that has just ended its job, and one that the collector has taken off the list, still count. pool_run_exact says exactly when a job is refused, pool_refused_partial what the workers do then (without preheat)"
  },
  {
   "property": "C18",
   "status": "partial",
   "theorems": [
    "linked_list_seq_refuted",
    "linked_list_seq_defects_refuted",
    "linked_list_seq_partial"
   ],
   "note": "False of the code in five ways (proved); the true restriction is C19."
  },
  {
   "property": "C180",
   "status": "partial",
   "theorems": [
    "pool_idle_shrinks_partial",
    "pool_idle_shrinks_refuted",
    "pool_collect_all_or_none"
   ],
   "note": "false with preheated workers (pool_idle_shrinks_refuted); proved without, for pools that nobody stops (a stopped pool: C130)"
  },
  {
   "property": "C181",
   "status": "partial",
   "theorems": [
    "pool_room_again_partial",
    "pool_room_again_refuted"
   ],
   "note": "false with preheated workers, for every maxWorkers and preheat of at least that many (pool_room_again_refuted); proved without, whoever calls Stop"
  },
  {
   "property": "C182",
   "status": "partial",
   "theorems": [
    "sig_runs",
    "sig_process_ends",
    "sig_once_all_run",
    "sig_all_run_refuted"
   ],
   "note": "false as stated (sig_all_run_refuted: second signal, nil logger, Goexit); proved for one signal, loggers that are not nil and handlers that return"
  },
  {
   "property": "C183",
   "status": "partial",
   "theorems": [
    "skiplist_keeps_nothing",
    "iterator_keeps_refuted",
    "ring_keeps_refuted",
    "stack_keeps_refuted"
   ],
   "note": "proved of SkipListMap; false of its iterators, of the Ring and of the slice stack, and it is said for all of them what they keep. The linked containers are not looked at here: they hand their nodes to a sync.Pool"
  },
  {
   "property": "C184",
   "status": "proved",
   "theorems": [
    "pdeq_is_a_deque",
    "pdeq_returns",
    "pdeq_no_race",
    "pdeq_keeps_nothing",
    "pdeq_refused_only_full_refuted"
   ],
   "note": "of the algorithm of sync/poolqueue.go (Go 1.19), which is not in /repo and is written out from the Go release. A push refused although there is room: pdeq_refused_only_full_refuted"
  },
  {
   "property": "C185",
   "status": "proved",
   "theorems": [
    "gpool_is_a_bag",
    "gpool_conserves",
    "gpool_got_was_put",
    "gpool_hands_out_once",
    "gpool_made_then_got",
    "gpool_drops_old",
    "gpool_first_collection",
    "gpool_is_the_pool",
    "gpool_double_put_refuted"
   ],
   "note": "of the algorithm of sync/pool.go and poolqueue.go (Go 1.19), not in /repo. The order in which a call tries the places is left open, so the model has more executions than the code; the number of Ps is fixed"
  },
  {
   "property": "C186",
   "status": "proved",
   "theorems": [
    "mutex_exclusion",
    "mutex_never_aborts",
    "mutex_word",
    "mutex_at_rest",
    "mutex_progress",
    "mutex_is_an_owner",
    "mutex_order_refuted"
   ],
   "note": "of the algorithm of sync/mutex.go (Go 1.19), not in /repo. That each waiter gets the mutex in the end while new calls keep coming is not shown (it rests on the one-millisecond threshold of starvation mode); without new calls: C187"
  },
  {
   "property": "C187",
   "status": "proved",
   "theorems": [
    "mutex_drains",
    "mutex_all_return"
   ],
   "note": "of the algorithm of sync/mutex.go (Go 1.19), not in /repo; spins are counted apart, the runtime allows four in a row"
  },
  {
   "property": "C188",
   "status": "proved",
   "theorems": [
    "pdeq_lock_free",
    "pdeq_never_waits"
   ],
   "note": "of the algorithm of sync/poolqueue.go (Go 1.19), not in /repo"
  },
  {
   "property": "C189",
   "status": "proved",
   "theorems": [
    "rwmutex_over_mutex",
    "rwmutex_over_mutex_excludes",
    "rwmutex_over_mutex_progress",
    "rwmutex_over_mutex_at_rest",
    "syncmap_over_mutex",
    "syncmap_over_mutex_progress"
   ],
   "note": "of the algorithms of sync/rwmutex.go and sync/mutex.go (Go 1.19), not in /repo, under syncmapx.go"
  },
  {
   "property": "C19",
   "status": "proved",
   "theorems": [
    "linked_list_away_from_last"
   ],
   "note": "Refinement to the ideal sequence on the stated domain, any pool behaviour."
  },
  {
   "property": "C190",
   "status": "proved",
   "theorems": [
    "lazy_over_mutex",
    "lazy_with_mutex",
    "close_over_mutex",
    "close_with_mutex",
    "pool_over_mutex",
    "pool_with_mutex"
   ],
   "note": "sync/mutex.go (Go 1.19) is not in /repo; goroutines may be in the code of the mutex whatever else they do, so there are more executions than in Go"
  },
  {
   "property": "C191",
   "status": "proved",
   "theorems": [
    "conv_over_rwmutex",
    "conv_over_rwmutex_serial",
    "conv_over_rwmutex_no_race",
    "conv_over_rwmutex_reentrant",
    "conv_over_rwmutex_deadlock",
    "conv_over_rwmutex_deadlock_refuted",
    "conv_over_mutex"
   ],
   "note": "the refuted statement is that a waiting Lock always keeps the inner call out, as the simple lock of C107 does; sync/rwmutex.go and sync/mutex.go (Go 1.19) are not in /repo"
  },
  {
   "property": "C192",
   "status": "proved",
   "theorems": [
    "conv_over_rwmutex_no_deadlock",
    "conv_over_mutex_no_deadlock"
   ],
   "note": "sync/rwmutex.go and sync/mutex.go (Go 1.19) are not in /repo; converters that call convx: C107, C191"
  },
  {
   "property": "C193",
   "status": "proved",
   "theorems": [
    "conv_over_rwmutex_finite",
    "conv_over_rwmutex_ends"
   ],
   "note": "as C192; with converters that call convx an execution may end in the deadlock of C191"
  },
  {
   "property": "C194",
   "status": "proved",
   "theorems": [
    "lazy_over_mutex_reentrant_hangs",
    "lazy_over_mutex_reentrant_never",
    "close_over_mutex_reentrant_hangs"
   ],
   "note": "as C190: sync/mutex.go (Go 1.19) is not in /repo"
  },
  {
   "property": "C195",
   "status": "proved",
   "theorems": [
    "pool_over_mutex_exactly_once",
    "pool_over_mutex_handled_or_running",
    "pool_over_mutex_bounded",
    "pool_over_mutex_workers",
    "pool_over_mutex_stopped"
   ],
   "note": "as C190: sync/mutex.go (Go 1.19) is not in /repo"
  },
  {
   "property": "C196",
   "status": "proved",
   "theorems": [
    "nested_lock_exclusive",
    "nested_lock_deadlock",
    "nested_lock_reentrant",
    "nested_lock_ordered",
    "nested_lock_ordered_ends",
    "nested_lock_steps",
    "nested_lock_runs_once",
    "nested_lock_all_run",
    "nested_lock_crossed_refuted"
   ],
   "note": "the refuted statement is that callbacks may take objects in any order; objects whose first word is something else: C44, C45"
  },
  {
   "property": "C197",
   "status": "proved",
   "theorems": [
    "lazy_net_once",
    "lazy_net_value",
    "lazy_net_deadlock",
    "lazy_net_circle",
    "lazy_net_ordered",
    "lazy_net_defined",
    "lazy_net_steps",
    "lazy_net_ends",
    "lazy_net_panic",
    "lazy_net_ring_refuted"
   ],
   "note": "the refuted statement is that Get returns as long as no goroutine calls Get of a Lazy whose constructor it is inside of; the mutex of a Once has an owner or none, as in C42 (its code: C190, C194)"
  },
  {
   "property": "C198",
   "status": "proved",
   "theorems": [
    "mtree_fun",
    "mtree_returns",
    "mtree_calls",
    "mtree_using",
    "mtree_returns_iff",
    "mtree_circle",
    "mtree_no_errors_refuted"
   ],
   "note": "the refuted statement is that AsErrs is empty if every closer returns nil; closers that call their own manager: C110"
  },
  {
   "property": "C199",
   "status": "proved",
   "theorems": [
    "cnet_exclusive",
    "cnet_deadlock",
    "cnet_ordered",
    "cnet_ends",
    "cnet_ring_refuted"
   ],
   "note": "the refuted statement is that Close ends as long as no goroutine is about to close a manager that it is closing itself; errors: C198; sync.Mutex has an owner or none (its code: C190)"
  },
  {
   "property": "C20",
   "status": "partial",
   "theorems": [
    "ring_fifo_refuted",
    "ring_fifo_every_capacity_refuted",
    "ring_fifo_partial"
   ],
   "note": "False of the code for every capacity: the (n+1)-th accepted Enqueue writes data[n] and panics. Proved up to there."
  },
  {
   "property": "C21",
   "status": "proved",
   "theorems": [
    "ring_exact",
    "ring_excess_panics",
    "ring_head_front",
    "ring_head_empty",
    "ring_new_degenerate"
   ],
   "note": ""
  },
  {
   "property": "C22",
   "status": "proved",
   "theorems": [
    "slice_stack_lifo",
    "slice_stack_lifo_from"
   ],
   "note": "For every growth decision of append."
  },
  {
   "property": "C23",
   "status": "proved",
   "theorems": [
    "slice_list_sequence",
    "slice_list_insert_panics",
    "slice_list_cap"
   ],
   "note": "Every history in which the length stays below the largest int."
  },
  {
   "property": "C24",
   "status": "proved",
   "theorems": [
    "slice_get_clamps",
    "slice_get_clamps_in_range",
    "slice_set_clamps"
   ],
   "note": ""
  },
  {
   "property": "C25",
   "status": "partial",
   "theorems": [
    "slice_splice",
    "slice_splice_spread_refuted",
    "slice_splice_spread_partial",
    "slice_splice_spread_exact",
    "slice_splice_spread_iff"
   ],
   "note": "Proved for explicit arguments (and for Expand, Insert, Cut, Push, UnShift). False for a spread argument that is a view of the receiver with room behind it; proved otherwise. slice_splice_spread_exact says what every cell holds afterwards in all cases, slice_splice_spread_iff when the claim holds."
  },
  {
   "property": "C26",
   "status": "partial",
   "theorems": [
    "slice_delete_refuted",
    "slice_delete_partial"
   ],
   "note": "False of the code for i = MaxInt64 (i+1 wraps and everything is removed); proved for every other int."
  },
  {
   "property": "C27",
   "status": "proved",
   "theorems": [
    "slice_subrange"
   ],
   "note": ""
  },
  {
   "property": "C28",
   "status": "proved",
   "theorems": [
    "slice_pop",
    "slice_shift",
    "slice_push_pop_inverse"
   ],
   "note": ""
  },
  {
   "property": "C29",
   "status": "proved",
   "theorems": [
    "slice_reverse",
    "slice_reverse_twice"
   ],
   "note": ""
  },
  {
   "property": "C30",
   "status": "partial",
   "theorems": [
    "slice_rotate_refuted",
    "slice_rotate_partial",
    "slice_rotate_undo_partial"
   ],
   "note": "False of the code for MinInt64 whenever Len does not divide 2^63 (panic); proved for every other int, with the inverse."
  },
  {
   "property": "C31",
   "status": "proved",
   "theorems": [
    "slice_filter",
    "slice_filter_predicate"
   ],
   "note": ""
  },
  {
   "property": "C32",
   "status": "proved",
   "theorems": [
    "slice_shuffle",
    "slice_shuffle_reaches_all",
    "slice_shuffle_once"
   ],
   "note": ""
  },
  {
   "property": "C33",
   "status": "partial",
   "theorems": [
    "slice_split_refuted",
    "slice_split_partial",
    "slice_split_segments"
   ],
   "note": "False when a size overflows the running index; proved when none does, and for any sizes every piece is a segment of the slice."
  },
  {
   "property": "C34",
   "status": "proved",
   "theorems": [
    "slice_batch"
   ],
   "note": ""
  },
  {
   "property": "C35",
   "status": "partial",
   "theorems": [
    "slice_panics_refuted",
    "slice_bulk_partial"
   ],
   "note": "Panics for DeleteReplace out of range, too large Extend or Repeat, and negative Repeat of a non-empty slice; proved outside those cases."
  },
  {
   "property": "C36",
   "status": "proved",
   "theorems": [
    "slice_copy_independent",
    "slice_all_histories"
   ],
   "note": ""
  },
  {
   "property": "C37",
   "status": "partial",
   "theorems": [
    "slice_splice_clobbers_refuted",
    "slice_splice_clobbers_partial",
    "slice_splice_spread_exact"
   ],
   "note": "Splice appends the tail to the argument slice, so spare capacity behind it is overwritten; everything else is left alone."
  },
  {
   "property": "C38",
   "status": "proved",
   "theorems": [
    "slice_index_of",
    "slice_contains",
    "slice_each"
   ],
   "note": ""
  },
  {
   "property": "C39",
   "status": "proved",
   "theorems": [
    "bitset_is_set",
    "bitset_membership"
   ],
   "note": "For every width."
  },
  {
   "property": "C40",
   "status": "proved",
   "theorems": [
    "bitset_test_any",
    "bitset_test_exact"
   ],
   "note": ""
  },
  {
   "property": "C41",
   "status": "proved",
   "theorems": [
    "option_match",
    "result_match"
   ],
   "note": ""
  },
  {
   "property": "C42",
   "status": "proved",
   "theorems": [
    "lazy_once",
    "lazy_no_race",
    "lazy_progress",
    "lazy_panic_refuted"
   ],
   "note": "For every constructor that returns; lazy_panic_refuted gives the exact behaviour of one that panics (not retried, later Gets return the zero value)."
  },
  {
   "property": "C43",
   "status": "proved",
   "theorems": [
    "parameter_composes",
    "parameter_calls_once_in_order",
    "parameter_panic"
   ],
   "note": ""
  },
  {
   "property": "C44",
   "status": "partial",
   "theorems": [
    "lock_refuted"
   ],
   "note": "False of the code: Lock compares the object with its own address, so on any ordinary object no call ever gets in. See C45 for what holds."
  },
  {
   "property": "C45",
   "status": "proved",
   "theorems": [
    "lock_mutual_exclusion",
    "lock_runs_once",
    "lock_progress",
    "lock_refuted"
   ],
   "note": ""
  },
  {
   "property": "C46",
   "status": "proved",
   "theorems": [
    "pool_hands_out_once",
    "pool_origin",
    "pool_after_init",
    "pool_get_without_init"
   ],
   "note": "For every choice of the runtime which objects to keep, drop or hand out."
  },
  {
   "property": "C47",
   "status": "proved",
   "theorems": [
    "syncmap_linearizable",
    "syncmap_no_race",
    "syncmap_exclusion",
    "syncmap_progress"
   ],
   "note": "Keys with decidable equality (no NaN keys)."
  },
  {
   "property": "C48",
   "status": "partial",
   "theorems": [
    "truncate_refuted",
    "truncate_floor_partial",
    "floor_to_unique",
    "truncate_idempotent",
    "truncate_monotone",
    "truncate_nonpositive_d"
   ],
   "note": "False as stated: time.Second*d wraps for d > 9223372036 (about 292 years). Proved for d up to that and times that do not overflow."
  },
  {
   "property": "C49",
   "status": "proved",
   "theorems": [
    "truncate_units",
    "truncate_week_monday"
   ],
   "note": "Times at least a week above the int64 minimum and whose offset from year 1 fits."
  },
  {
   "property": "C50",
   "status": "partial",
   "theorems": [
    "truncate_year_refuted",
    "truncate_year_start_partial",
    "truncate_month_start_partial",
    "truncate_year_all",
    "truncate_month_all",
    "year_start_unique"
   ],
   "note": "Proved for every sec from the zero of package time absolute time on; below it (the last 258 years of the int64 range) the absolute time wraps, and truncate_year_all and truncate_month_all say what comes out."
  },
  {
   "property": "C51",
   "status": "partial",
   "theorems": [
    "get_diff_refuted",
    "get_diff_exact",
    "get_diff_elapsed_partial"
   ],
   "note": "False as stated: timex.Now() drops the monotonic reading. Exact behaviour: difference of the wall clock readings, clamped to Duration."
  },
  {
   "property": "C52",
   "status": "proved",
   "theorems": [
    "sleeper_exclusive",
    "sleeper_busy_false",
    "sleep_results"
   ],
   "note": "Any number of goroutines, every interleaving."
  },
  {
   "property": "C53",
   "status": "partial",
   "theorems": [
    "wakeup_lost_refuted",
    "wakeup_overlap_refuted",
    "wakeup_wakes_partial",
    "wakeup_false",
    "sleep_end_reason"
   ],
   "note": "False as stated: a sleeper that has not yet read the context misses the wakeup, and overlapping Wakeup calls can leave ctx and cancel of different contexts. Proved for non-overlapping Wakeup calls and a sleeper that is already waiting."
  },
  {
   "property": "C54",
   "status": "partial",
   "theorems": [
    "sleep_for_refuted",
    "sleep_for_exact",
    "sleep_until_exact"
   ],
   "note": "False: SleepFor multiplies by time.Second once more (and wraps). The exact duration slept is proved."
  },
  {
   "property": "C55",
   "status": "proved",
   "theorems": [
    "intersection_sound",
    "intersection_one",
    "intersection_none"
   ],
   "note": "Every tie order of the unstable sort; no overflow of offset+-band."
  },
  {
   "property": "C56",
   "status": "proved",
   "theorems": [
    "intersection_full",
    "intersection_touching_refuted"
   ],
   "note": "The midpoints must be strictly inside; intersection_touching_refuted shows why."
  },
  {
   "property": "C57",
   "status": "partial",
   "theorems": [
    "intersection_order_refuted",
    "intersection_order_partial",
    "insertion_sort_sorts",
    "inter_small_inter"
   ],
   "note": "False as stated (ties between a midpoint and an end); proved when tuples of different types never coincide."
  },
  {
   "property": "C58",
   "status": "proved",
   "theorems": [
    "pool_exactly_once",
    "pool_handled_or_running",
    "pool_no_panic",
    "pool_send_ready",
    "pool_waiting_served"
   ],
   "note": "Labels LBegin/LEnd are the handler call and its return; the handler is assumed to return without panicking."
  },
  {
   "property": "C59",
   "status": "partial",
   "theorems": [
    "pool_max_workers_partial",
    "pool_bounded",
    "pool_workers_count",
    "pool_max_workers_refuted"
   ],
   "note": "Holds when preheat <= maxWorkers; in general the bound is the larger of the two (pool_bounded), and NewTimedPool does not check preheat, so the full claim is refuted."
  },
  {
   "property": "C60",
   "status": "partial",
   "theorems": [
    "pool_stopped_run_false",
    "pool_drained",
    "pool_stopped_terminates",
    "pool_drained_workers_partial",
    "pool_drained_workers_refuted"
   ],
   "note": "Run-false and every-accepted-job-handled hold in full; Workers()=0 only without preheat: a preheated goroutine that has not started when its worker is collected leaks, refuting the full claim."
  },
  {
   "property": "C61",
   "status": "partial",
   "theorems": [
    "collect_exact_partial",
    "collect_in_range",
    "pool_closes_only_idle",
    "collect_exact_refuted",
    "pool_collect_cut",
    "pool_collect_exact_apart"
   ],
   "note": "Never a busy worker: in full. Exactness needs the idle list in order of last activity, which the code does not guarantee (free reads the clock before taking the lock), so the full claim is refuted. pool_collect_exact_apart proves it when no two goroutines are in free at once; pool_collect_cut says where any idle list is cut."
  },
  {
   "property": "C62",
   "status": "proved",
   "theorems": [
    "new_timed_pool_checks"
   ],
   "note": ""
  },
  {
   "property": "C63",
   "status": "partial",
   "theorems": [
    "using_closes_all_partial",
    "using_close_panics",
    "using_closes_all_refuted"
   ],
   "note": "Proved for closers that return (with or without an error), any body outcome; a Close that panics skips the rest, which refutes the full claim, and using_close_panics says exactly what happens then."
  },
  {
   "property": "C64",
   "status": "proved",
   "theorems": [
    "manager_holds",
    "managers_hold",
    "managers_answer",
    "manager_closes_all",
    "manager_close_panics",
    "as_errs_spec"
   ],
   "note": "For closers that return; manager_close_panics covers the rest."
  },
  {
   "property": "C65",
   "status": "partial",
   "theorems": [
    "manager_success_partial",
    "manager_close_never_nil",
    "manager_close_nil_refuted"
   ],
   "note": "Refuted: Close never returns nil. What holds is that AsErrs of the result is empty exactly on success."
  },
  {
   "property": "C66",
   "status": "partial",
   "theorems": [
    "decoupler_bounded_fifo_refuted",
    "decoupler_reorders_refuted",
    "decoupler_full_drops",
    "decoupler_fifo"
   ],
   "note": "Refuted: a dropped Write uses up a slot number, after which Next spins for ever on an empty slot. What holds is C67."
  },
  {
   "property": "C67",
   "status": "partial",
   "theorems": [
    "decoupler_fifo",
    "decoupler_empty_write",
    "decoupler_fifo_for_ever_refuted"
   ],
   "note": "Up to 2^64-2 messages; message number 2^64-2 makes Next hang."
  },
  {
   "property": "C68",
   "status": "partial",
   "theorems": [
    "decoupler_conserves_partial",
    "decoupler_call_once",
    "decoupler_delivers_written_partial",
    "decoupler_bounded_partial",
    "decoupler_drop_full_partial",
    "decoupler_slot_exclusive_partial",
    "decoupler_none_partial",
    "decoupler_none_refuted"
   ],
   "note": "As long as the write counter has been incremented at most 2^64-2 times."
  },
  {
   "property": "C69",
   "status": "proved",
   "theorems": [
    "registry_latest"
   ],
   "note": "Each call is atomic, being under the lock; converters that call back into the registry are not modelled."
  },
  {
   "property": "C70",
   "status": "partial",
   "theorems": [
    "registry_interface_refuted",
    "registry_interface_result_refuted",
    "registry_interface_never",
    "registry_interface_nil_partial",
    "registry_interface_result_partial"
   ],
   "note": "Refuted: interface types share the nil key; converters from interface types are only found for nil values."
  },
  {
   "property": "C71",
   "status": "proved",
   "theorems": [
    "integer_conversion",
    "integer_range",
    "integer_roundtrip"
   ],
   "note": ""
  },
  {
   "property": "C72",
   "status": "proved",
   "theorems": [
    "integer_string"
   ],
   "note": ""
  },
  {
   "property": "C73",
   "status": "partial",
   "theorems": [
    "string_errors_refuted",
    "string_uint_exact",
    "string_int_exact",
    "string_in_range_partial"
   ],
   "note": "Refuted: parse errors are dropped. The exact result for every string is proved."
  },
  {
   "property": "C74",
   "status": "proved",
   "theorems": [
    "bool_string",
    "bool_number",
    "number_bool",
    "float_bool",
    "string_bool"
   ],
   "note": ""
  },
  {
   "property": "C75",
   "status": "proved",
   "theorems": [
    "string_bytes",
    "other_same",
    "runes_string",
    "runes_roundtrip_iff",
    "string_roundtrip_iff",
    "string_runes_exact"
   ],
   "note": ""
  },
  {
   "property": "C76",
   "status": "proved",
   "theorems": [
    "passhash_roundtrip",
    "passhash_layout",
    "passhash_bytes",
    "passhash_base64_text",
    "passhash_base64_read"
   ],
   "note": "lengths below 2^63 in total, as any Go slice"
  },
  {
   "property": "C77",
   "status": "proved",
   "theorems": [
    "passhash_validate_safe",
    "passhash_validate_exact",
    "verify_total",
    "verify_exact",
    "verify_base64_total"
   ],
   "note": "also: every rejected string would make an accessor panic, so the check is exact"
  },
  {
   "property": "C78",
   "status": "proved",
   "theorems": [
    "hash_exact",
    "verify_hash",
    "verify_hash_same",
    "base64_roundtrip",
    "verify_hash_base64",
    "verify_base64_exact",
    "verify_unknown"
   ],
   "note": "for every KDF that returns the number of bytes it is asked for (argon2 is a parameter), and every salt"
  },
  {
   "property": "C79",
   "status": "partial",
   "theorems": [
    "passhash_unique_partial",
    "passhash_accepted",
    "passhash_trailing",
    "passhash_malleable_refuted",
    "base64_malleable_refuted"
   ],
   "note": "false as stated: Validate accepts bytes after the last field, so every record followed by anything verifies like the record; and Base64 text has several spellings. Proved: an accepted string is exactly the record of its fields followed by a tail, and unique without a tail"
  },
  {
   "property": "C80",
   "status": "proved",
   "theorems": [
    "cbc_roundtrip",
    "ctr_roundtrip",
    "gcm_roundtrip",
    "aes_rand_error"
   ],
   "note": "for every block cipher whose Decrypt undoes Encrypt, every 32-byte key hash, every IV/nonce; GCM up to the 64 GiB limit of crypto/cipher"
  },
  {
   "property": "C81",
   "status": "partial",
   "theorems": [
    "aes_never_panics_refuted",
    "cbc_encrypt_panics",
    "cbc_decrypt_panics",
    "ctr_decrypt_panics",
    "gcm_decrypt_panics",
    "gcm_encrypt_panics",
    "ctr_encrypt_total"
   ],
   "note": "false as stated: EncryptCBC panics on data that is not full blocks, all three Decrypt functions panic on data shorter than the header. The exact condition is proved for each function, whatever the capacity of the slice"
  },
  {
   "property": "C82",
   "status": "partial",
   "theorems": [
    "bcrypt_length_limit",
    "bcrypt_decrypt_exact",
    "bcrypt_same",
    "bcrypt_right_password_partial",
    "bcrypt_short_password_partial",
    "bcrypt_long_password_refuted",
    "bcrypt_nul_refuted",
    "bcrypt_malformed",
    "bcrypt_no_error"
   ],
   "note": "false as stated: Decrypt takes any longer password whose first 72 bytes are a 72-byte password, and p NUL p for p. Proved for passwords of at most 72 bytes without NUL bytes, up to digest collisions"
  },
  {
   "property": "C83",
   "status": "partial",
   "theorems": [
    "search_leftmost",
    "search_finds",
    "search_any",
    "search_nan_refuted"
   ],
   "note": "For operators < that are a strict weak order; with NaN in a float slice a key is reported as found that is not there."
  },
  {
   "property": "C84",
   "status": "partial",
   "theorems": [
    "sort_ascending",
    "sort_ignores_reverse",
    "sort_reverse_flag_refuted"
   ],
   "note": "Refuted: the flag is ignored. The sorting procedure is the contract of x/exp/slices here; C146 proves it of the code."
  },
  {
   "property": "C85",
   "status": "proved",
   "theorems": [
    "sort_reverse_descending",
    "sort_stable_ascending",
    "sort_stable_reverse_descending",
    "sort_unique",
    "sort_stable_unique",
    "sort_reverse_is_rev",
    "is_sorted_exact",
    "is_sorted_reverse_exact",
    "sort_then_is_sorted",
    "sort_reverse_then_is_sorted",
    "sort_stable_then_is_sorted"
   ],
   "note": "The sorting procedures themselves are the contract of x/exp/slices."
  },
  {
   "property": "C86",
   "status": "partial",
   "theorems": [
    "kill_closed_after_handler",
    "kill_survives_partial",
    "kill_survives_refuted",
    "kill_handler_runs"
   ],
   "note": "Holds for one signal; a second one closes a closed channel and crashes."
  },
  {
   "property": "C87",
   "status": "proved",
   "theorems": [
    "iterator_weakly_consistent"
   ],
   "note": ""
  },
  {
   "property": "C88",
   "status": "partial",
   "theorems": [
    "lock_panic_refuted"
   ],
   "note": "False of the code: there is no defer; after a panic nobody gets in any more."
  },
  {
   "property": "C89",
   "status": "partial",
   "theorems": [
    "stop_takes_effect",
    "run_false_after_stop_refuted"
   ],
   "note": "Refuted: the collector sets maxWorkers after it has received from Stop. What holds is that it does so next."
  },
  {
   "property": "C90",
   "status": "partial",
   "theorems": [
    "stop_again_returns",
    "overlapping_stops_refuted"
   ],
   "note": "Sequential calls: proved. Overlapping calls: refuted, one blocks for ever."
  },
  {
   "property": "C91",
   "status": "proved",
   "theorems": [
    "error_list_string"
   ],
   "note": ""
  },
  {
   "property": "C92",
   "status": "proved",
   "theorems": [
    "decoupler_size_zero"
   ],
   "note": ""
  },
  {
   "property": "C93",
   "status": "partial",
   "theorems": [
    "decoupler_order_refuted",
    "decoupler_next_returns_refuted",
    "decoupler_conserves_partial"
   ],
   "note": "Refuted; what holds is C68, and C173 while never more than size messages are on their way."
  },
  {
   "property": "C94",
   "status": "proved",
   "theorems": [
    "search_custom_leftmost"
   ],
   "note": ""
  },
  {
   "property": "C95",
   "status": "partial",
   "theorems": [
    "is_sorted_nan_refuted",
    "is_sorted_neighbours",
    "is_sorted_exact"
   ],
   "note": "Refuted with NaN; exact for strict weak orders."
  },
  {
   "property": "C96",
   "status": "partial",
   "theorems": [
    "integer_float_partial",
    "integer_float_refuted"
   ],
   "note": "Holds up to 2^53 (float64) and 2^24 (float32)."
  },
  {
   "property": "C97",
   "status": "proved",
   "theorems": [
    "float_same",
    "float32_float64",
    "float_string",
    "float_text_float"
   ],
   "note": "float_string has it that strconv round-trips float64 as a hypothesis; float_text_float proves it of strconv as written out."
  },
  {
   "property": "C98",
   "status": "proved",
   "theorems": [
    "builtin_pairs",
    "builtin_once"
   ],
   "note": ""
  },
  {
   "property": "C99",
   "status": "partial",
   "theorems": [
    "string_float32_refuted",
    "string_float32_partial",
    "text_to_float32_twice_refuted",
    "text_to_float32_partial",
    "text_to_float32"
   ],
   "note": "Refuted: the text is rounded to float64 first, and 2^53 + 2^29 + 1 comes out wrong. Holds for the integers up to 2^53 in size, where it agrees with the conversion of the int. The first two assume that ParseFloat is correctly rounded on the texts of the int64 values; the others prove it of strconv as written out."
  }
 ]
}