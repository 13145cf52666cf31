{
 "claims": [
  {
   "property": "C01",
   "status": "proved",
   "theorems": [
    "C01_spec_retained_is_longest_suffix",
    "C01_all_returns_exactly_retained",
    "C01_store_accepts",
    "C01_store_accepts_any_history"
   ],
   "note": ""
  },
  {
   "property": "C02",
   "status": "proved",
   "theorems": [
    "C02_size",
    "C02_size_bounded_any_history"
   ],
   "note": ""
  },
  {
   "property": "C03",
   "status": "proved",
   "theorems": [
    "C03_random_draws_retained",
    "C03_random_unique_distinct_positions"
   ],
   "note": ""
  },
  {
   "property": "C04",
   "status": "partial",
   "theorems": [
    "C04_clear_then_sample_refuted",
    "C04_clear_then_sample_always_raises",
    "C04_clear_size_partial"
   ],
   "note": "REFUTED: clear() keeps the handle dictionaries, so sampling afterwards raises IndexError (C04_clear_then_sample_refuted, and for every non-empty history C04_clear_then_sample_always_raises). Proved part: size() is 0."
  },
  {
   "property": "C05",
   "status": "partial",
   "theorems": [
    "C05_rejected_store_keeps_samples_partial",
    "C05_oversized_store_refuted",
    "C05_oversized_store_corrupts"
   ],
   "note": "REFUTED for episodes longer than the buffer (C05_oversized_store_refuted / _corrupts); proved for empty episodes and missing attributes."
  },
  {
   "property": "C06",
   "status": "proved",
   "theorems": [
    "C06_rows_aligned",
    "C06_defaults",
    "C06_empty_batch",
    "C06_valid_transitions",
    "C06_errors"
   ],
   "note": ""
  },
  {
   "property": "C07",
   "status": "proved",
   "theorems": [
    "C07_leaves_and_sums_exact",
    "C07_valid_updates_succeed",
    "C07_single_leaf_tree_refuted",
    "C07_single_leaf_every_weight_refuted"
   ],
   "note": "Size-1 trees are outside the quantifier: single updates raise IndexError there (C07_single_leaf_tree_refuted)."
  },
  {
   "property": "C08",
   "status": "proved",
   "theorems": [
    "C08_find_is_inverse_cdf",
    "C08_find_zero"
   ],
   "note": ""
  },
  {
   "property": "C09",
   "status": "proved",
   "theorems": [
    "C09_single_equals_batch_of_one",
    "C09_batch_equals_sequence",
    "C09_all_equals_batch_up_to_max"
   ],
   "note": ""
  },
  {
   "property": "C10",
   "status": "partial",
   "theorems": [
    "C10_leaf_max_refuted",
    "C10_leaf_max_history_partial",
    "C10_leaf_max_upper_bound_partial",
    "C10_lowered_leaf_refuted"
   ],
   "note": "REFUTED: max_leaf never decreases except in update_all_leaves (C10_leaf_max_refuted). Proved: it is exactly the maximum of the weights written since the last full rewrite, hence an upper bound."
  },
  {
   "property": "C11",
   "status": "partial",
   "theorems": [
    "C11_batch_and_read_rejected",
    "C11_length_mismatch_rejected",
    "C11_all_wrong_length_rejected",
    "C11_all_empty_rejected",
    "C11_single_rejected_partial",
    "C11_index_size_refuted",
    "C11_phantom_leaf_refuted"
   ],
   "note": "REFUTED for update_leaf with index == size (accepted, or IndexError after mutation). Proved for batch updates, reads, full updates and every other single index."
  },
  {
   "property": "C12",
   "status": "proved",
   "theorems": [
    "C12_stratified_sampling",
    "C12_indexes_sorted",
    "C12_single_sample_refuted",
    "C12_nothing"
   ],
   "note": "n = 1 is outside the quantifier: it raises TypeError in every state (C12_single_sample_refuted)."
  },
  {
   "property": "C13",
   "status": "partial",
   "theorems": [
    "C13_evicted_sampled_refuted",
    "C13_any_slot_refuted",
    "C13_recent_partial"
   ],
   "note": "REFUTED: slots of evicted but not overwritten episodes keep their priorities and are sampled (C13_evicted_sampled_refuted); in every reachable buffer every stored slot whose interval begins 1e-6 below the total can be drawn, evicted or not (C13_any_slot_refuted). Proved: samples are among the last cap written transitions; and retained while nothing was evicted."
  },
  {
   "property": "C14",
   "status": "proved",
   "theorems": [
    "C14_beta_closed_form",
    "C14_beta_monotone_bounded"
   ],
   "note": ""
  },
  {
   "property": "C15",
   "status": "proved",
   "theorems": [
    "C15_random_windows",
    "C15_unique_windows_distinct_episodes",
    "C15_all_windows",
    "C15_after_clear_refuted",
    "C15_after_clear_always_refuted"
   ],
   "note": "for all histories of store_episode calls; C15_after_clear_refuted records that clear() leaves the episode table stale (C04 defect)"
  },
  {
   "property": "C16",
   "status": "partial",
   "theorems": [
    "C16_wrapped_episode_refuted",
    "C16_short_episodes_refuted",
    "C16_evicted_episode_refuted",
    "C16_short_list_priorities_refuted",
    "C16_no_wrap_partial",
    "C16_single_refuted",
    "C16_nothing",
    "C16_any_short_list_priorities_refuted"
   ],
   "note": "REFUTED: RNNPrioritizedBuffer cannot even be constructed (C145), the theorems are about its methods on an object in the intended initial state; wrapped episodes raise IndexError, short episodes give windows across episodes, evicted episodes are still sampled, list priorities of short episodes raise after storing. C16_no_wrap_partial: property holds while no episode crosses the ring end, total priority > 1e-6 and draws are positive"
  },
  {
   "property": "C17",
   "status": "partial",
   "theorems": [
    "C17_stale_updates_ignored_partial",
    "C17_clear_aba_refuted",
    "C17_after_clear_refuted",
    "C17_concurrent_partial"
   ],
   "note": "REFUTED with clear(): version table reset to 0 lets a stale update hit a new transition (C17_clear_aba_refuted); with a clear() in between a sampled slot takes the stale priority exactly when it was written as often after the clear as before the sample (C17_after_clear_refuted). Proved for every history in which no clear() falls between the sample and its update. Missing: clear in between (false). C17_concurrent_partial: the same for samples taken while all members store, clear and update concurrently."
  },
  {
   "property": "C18",
   "status": "proved",
   "theorems": [
    "C18_sample_alignment",
    "C18_messages",
    "C18_round_trip",
    "C18_share_of_one_refuted",
    "C18_any_share_of_one_refuted"
   ],
   "note": "C18_share_of_one_refuted records that a member share of exactly 1 makes sampling raise TypeError; all theorems quantify over samples that return."
  },
  {
   "property": "C19",
   "status": "proved",
   "theorems": [
    "C19_all_size",
    "C19_sample_is_concatenation",
    "C19_skewed_members_refuted",
    "C19_empty_raises",
    "C19_any_skewed_member_refuted"
   ],
   "note": "C19_skewed_members_refuted / C19_empty_raises record that skewed members are not compensated for and that an empty group raises IndexError when sample_attrs is None."
  },
  {
   "property": "C20",
   "status": "partial",
   "theorems": [
    "C20_push_success",
    "C20_compare_and_swap_partial",
    "C20_version_reuse_refuted",
    "C20_reused_version_lost_refuted"
   ],
   "note": "REFUTED for reuse of an older retained version number: the push succeeds but pull keeps returning the previous newest value (C20_version_reuse_refuted). Proved: success condition and no change on failure for every history; full compare-and-swap behaviour for histories without such reuse."
  },
  {
   "property": "C21",
   "status": "proved",
   "theorems": [
    "C21_bounded",
    "C21_most_recent"
   ],
   "note": "size bound for every history; window contents for histories that never reuse a version number, as the property says"
  },
  {
   "property": "C22",
   "status": "proved",
   "theorems": [
    "C22_versions_without_gaps",
    "C22_push_pull"
   ],
   "note": "each remote call atomic; a failed push and its pull are two steps that others may interleave; load_state_dict assumed to succeed"
  },
  {
   "property": "C23",
   "status": "proved",
   "theorems": [
    "C23_each_gradient_once",
    "C23_in_progress",
    "C23_discard_only_on_overflow",
    "C23_reduction"
   ],
   "note": "any number of reducers; fine-grained steps of the reduction thread; optimizer step itself not modelled"
  },
  {
   "property": "C24",
   "status": "proved",
   "theorems": [
    "C24_submission",
    "C24_refused",
    "C24_ready",
    "C24_chunk_accounted",
    "C24_value",
    "C24_raise",
    "C24_failure_raises"
   ],
   "note": "submission atomic; task functions pure; completion, result delivery, worker death and replacement scheduled arbitrarily; readiness, value, exception and accounting of every chunk. chunksize 0 given explicitly (outside the property) returns [None]*n at once."
  },
  {
   "property": "C25",
   "status": "proved",
   "theorems": [
    "C25_imap_in_order",
    "C25_unordered_once",
    "C25_single_items",
    "C25_stop_complete",
    "C25_wait_only_if_missing",
    "C25_chunked_value"
   ],
   "note": "blocking wait modelled as repeated next attempts"
  },
  {
   "property": "C26",
   "status": "partial",
   "theorems": [
    "C26_cache_drained_partial",
    "C26_join_returns_partial",
    "C26_workers",
    "C26_empty_imap_refuted"
   ],
   "note": "REFUTED for imap/imap_unordered over an empty input: the job is never removed from the cache, so neither handler thread ends unless terminate() is called (C26_empty_imap_refuted, also for a task lost with a dying worker). Proved for every other history: the cache is drained, no step adds to what join() waits for and some thread or worker can always finish."
  },
  {
   "property": "C27",
   "status": "proved",
   "theorems": [
    "C27_distinct_contexts",
    "C27_all_contexts_used",
    "C27_replaced"
   ],
   "note": "maintenance interleaved with worker deaths; iteration order of the id set arbitrary; C27_replaced: after the deaths, a maintenance pass leaves only live workers, as many as the size."
  },
  {
   "property": "C28",
   "status": "proved",
   "theorems": [
    "C28_tables_match_history",
    "C28_one_owner",
    "C28_answers",
    "C28_only_owner_withdraws",
    "C28_pair_existing",
    "C28_pair_free",
    "C28_unpair_not_owner",
    "C28_is_paired",
    "C28_unpair_owner",
    "C28_lookup_value",
    "C28_single_holder_partial",
    "C28_pair_lookup_race_refuted",
    "C28_stale_service_call_refuted"
   ],
   "note": "the statement about the lookup tables holds for every interleaving. Additionally shown: the stored values can disagree with the table - a lookup arriving inside pair() withdraws the new entry (C28_pair_lookup_race_refuted), and calling a service its process no longer has withdraws the value entry of the same key (C28_stale_service_call_refuted, _world.py 126 passes LUTType.VALUE); one holder per key is proved for executions without such withdrawals (C28_single_holder_partial)."
  },
  {
   "property": "C29",
   "status": "partial",
   "theorems": [
    "C29_separates_partial",
    "C29_all_can_return_partial",
    "C29_early_return_refuted",
    "C29_lost_wakeup_refuted",
    "C29_any_early_return_refuted",
    "C29_any_lost_wakeup_refuted"
   ],
   "note": "REFUTED in general: set() and clear() on the barrier event are two steps, so a member running between them passes the next barrier alone (C29_early_return_refuted), and a member released before it waits on the event never returns (C29_lost_wakeup_refuted). Both parts are proved for schedules that avoid these two windows."
  },
  {
   "property": "C30",
   "status": "proved",
   "theorems": [
    "C30_waits_for_all",
    "C30_can_return"
   ],
   "note": "all members pass the same member list; repeated creation after destruction included; RPCs do not fail"
  },
  {
   "property": "C31",
   "status": "proved",
   "theorems": [
    "C31_nstep"
   ],
   "note": "rainbow.py 256-262 additionally multiplies by discount**n while bootstrapping from the one-step next_state; outside this property"
  },
  {
   "property": "C32",
   "status": "partial",
   "theorems": [
    "C32_returns",
    "C32_gae_partial",
    "C32_gae_zero",
    "C32_gae_cut",
    "C32_branch_one",
    "C32_branch_zero_partial",
    "C32_truncated_refuted"
   ],
   "note": "REFUTED for episodes cut off before a terminal state: for every lambda other than 0 the value of the last next_state is never used (C32_truncated_refuted), while lambda=0 uses it. Proved: returns for every episode, advantages for every lambda on chained episodes ending in a terminal step, exact result on truncated ones, agreement of the special branches."
  },
  {
   "property": "C33",
   "status": "partial",
   "theorems": [
    "C33_targets_partial",
    "C33_independent",
    "C33_last_target_refuted",
    "C33_store"
   ],
   "note": "REFUTED: the last target of every episode is 0 instead of V + delta (C33_last_target_refuted). Proved: independence of the other episodes, shifted targets, and the exact formula (V-trace minus the propagated error of the last step)."
  },
  {
   "property": "C34",
   "status": "partial",
   "theorems": [
    "C34_entries",
    "C34_nonneg",
    "C34_mass_partial",
    "C34_mean_partial",
    "C34_mass_refuted"
   ],
   "note": "REFUTED: an image that hits an atom exactly loses its probability; a terminal step whose value is an inner atom has the zero vector as target (C34_mass_refuted, any support). Proved: exact entries, non-negativity, mass and mean when no image is an atom."
  },
  {
   "property": "C35",
   "status": "partial",
   "theorems": [
    "C35_per_loss",
    "C35_per_priorities",
    "C35_rainbow_loss",
    "C35_rainbow_priorities",
    "C35_rainbow_refuted",
    "C35_rainbow_partial"
   ],
   "note": "REFUTED for RAINBOW: the loss is mean(loss)*mean(weight) for every batch (C35_rainbow_refuted). Proved for DQNPer and DDPGPer with [batch,1] network outputs, and for RAINBOW with equal weights."
  },
  {
   "property": "C36",
   "status": "proved",
   "theorems": [
    "C36_soft_update",
    "C36_soft_fixed_source",
    "C36_soft_hull",
    "C36_hard_update",
    "C36_periodic",
    "C36_init"
   ],
   "note": "networks of equal shape; optimizer arbitrary; DQN mode vanilla (target is the same object) not modelled. soft_update leaves buffers untouched."
  },
  {
   "property": "C37",
   "status": "proved",
   "theorems": [
    "C37_push",
    "C37_merge",
    "C37_empty"
   ],
   "note": ""
  },
  {
   "property": "C38",
   "status": "partial",
   "theorems": [
    "C38_refuted",
    "C38_partial",
    "C38_idle_worker_raises"
   ],
   "note": "REFUTED: in every history that completes a round with any observation at all the synchronized count exceeds the number of observations, because the manager's own observations are in both its global and its local statistics when it collects (C38_refuted); a worker that saw no observation makes the round raise KeyError (C38_idle_worker_raises). Proved: exact multiset that the synchronized statistics describe (C38_partial). Missing: the statement itself, which is false."
  },
  {
   "property": "C39",
   "status": "partial",
   "theorems": [
    "C39_std_partial",
    "C39_mean_partial",
    "C39_mean_drifts",
    "C39_refuted",
    "C39_any_observation_refuted"
   ],
   "note": "REFUTED: after apply_stats the filter's mean is an alias of the running mean, so it changes with later observations in place (C39_mean_drifts, C39_refuted), with every recorded observation other than the mean itself (C39_any_observation_refuted). Proved: the standard deviation in use is the one of the last apply_stats; the mean is constant until the first apply_stats."
  },
  {
   "property": "C40",
   "status": "proved",
   "theorems": [
    "C40_partition",
    "C40_seeds"
   ],
   "note": ""
  },
  {
   "property": "C41",
   "status": "proved",
   "theorems": [
    "C41_selection",
    "C41_distinct"
   ],
   "note": ""
  },
  {
   "property": "C42",
   "status": "partial",
   "theorems": [
    "C42_aligned_partial",
    "C42_refused",
    "C42_shorter",
    "C42_refuted",
    "C42_oversized_refuted"
   ],
   "note": "REFUTED: when the episode of a later agent lacks a required attribute, the earlier agents have already stored theirs and from then on equal positions hold different time steps (C42_refuted); oversized batches as in C42_oversized_refuted. Proved for every history of accepted stores: equal positions of all agents hold the same time step and a joint sample reads equal positions."
  },
  {
   "property": "C43",
   "status": "partial",
   "theorems": [
    "C43_partial",
    "C43_one_version",
    "C43_leading_zero_refuted",
    "C43_name_refuted"
   ],
   "note": "REFUTED: a file name with a leading zero counts as a version but is not the file that is loaded, so the load fails after some networks were already restored (C43_leading_zero_refuted); files of a network whose name has a character outside [a-zA-Z0-9_-] are never found (C43_name_refuted). Proved for all other directories; for all directories: a load that returns used one version for all networks."
  },
  {
   "property": "C44",
   "status": "partial",
   "theorems": [
    "C44_partial",
    "C44_refuted",
    "C44_empty_map"
   ],
   "note": "REFUTED before the first threshold: the rate of the last entry is returned (C44_refuted). Proved for every step that has reached the first threshold, repeated thresholds included."
  },
  {
   "property": "C45",
   "status": "partial",
   "theorems": [
    "C45_refuted",
    "C45_config_refuted",
    "C45_partial"
   ],
   "note": "REFUTED for every setting that has a default: the default overwrites the user's value (C45_refuted, all algorithms share the code); a Config without frame_config raises TypeError (C45_config_refuted). Proved: settings without default are kept, missing ones filled in."
  },
  {
   "property": "C46",
   "status": "proved",
   "theorems": [
    "C46_once"
   ],
   "note": "threads interleave between deletion of the registry entry and the callback; forked copies included; process ids are not reused and the callback does not fork"
  },
  {
   "property": "C47",
   "status": "partial",
   "theorems": [
    "C47_partial",
    "C47_default_demanded_refuted",
    "C47_required_missed_refuted",
    "C47_varargs_refuted",
    "C47_required_not_demanded_refuted"
   ],
   "note": "REFUTED for signatures with positional defaults and keyword-only parameters: a parameter with default is demanded and one without is not (C47_default_demanded_refuted, C47_required_missed_refuted); with *args and no **kwargs surplus keys are passed and the call fails (C47_varargs_refuted). Proved for all other signatures."
  },
  {
   "property": "C48",
   "status": "partial",
   "theorems": [
    "C48_partial",
    "C48_refuted"
   ],
   "note": "REFUTED: two perturbed passes in a row with the reset switch on store the noisy parameters as the originals (C48_refuted, for all parameters and noises). Proved for every history in which noise is regenerated and the optimizer runs only while the parameters are unperturbed."
  },
  {
   "property": "C49",
   "status": "partial",
   "theorems": [
    "C49_request_partial",
    "C49_sequence_partial",
    "C49_refuted",
    "C49_repeated_refuted"
   ],
   "note": "REFUTED: after a failed request the next one can return the stale answer of the failed one (C49_refuted); a repeated index never returns (C49_repeated_refuted). Proved for every schedule, every selection of distinct environments and any number of requests that returned."
  },
  {
   "property": "C50",
   "status": "proved",
   "theorems": [
    "C50_line_search",
    "C50_candidate"
   ],
   "note": "any number of backtracks of _line_search itself; that update ignores the configured number is C69. Exact rationals, no NaN."
  },
  {
   "property": "C51",
   "status": "proved",
   "theorems": [
    "C51_is_weights_normalized",
    "C51_is_weights_formula"
   ],
   "note": ""
  },
  {
   "property": "C52",
   "status": "partial",
   "theorems": [
    "C52_check_is_validity",
    "C52_constructor_valid",
    "C52_accepted_assignment_valid_partial",
    "C52_unknown_attribute_rejected",
    "C52_rejected_assignment_refuted",
    "C52_errors",
    "C52_rejected_stored_refuted",
    "C52_setattr_ignored_refuted"
   ],
   "note": "REFUTED: a rejected item assignment stays stored (C52_rejected_assignment_refuted); attribute assignment is silently dropped (C52_setattr_ignored_refuted). Proved: the check is exactly validity, so construction and accepted item assignments are valid."
  },
  {
   "property": "C53",
   "status": "proved",
   "theorems": [
    "C53_distributed_sample_size"
   ],
   "note": ""
  },
  {
   "property": "C54",
   "status": "partial",
   "theorems": [
    "C54_initial",
    "C54_replacement_partial",
    "C54_orphan_queue_refuted"
   ],
   "note": "REFUTED: replacements are always attached to queues 0,1,..., so when the worker of another queue dies that queue is left without a worker (C54_orphan_queue_refuted, every n >= 2). Holds initially and when exactly the lowest queues lost their workers."
  },
  {
   "property": "C55",
   "status": "partial",
   "theorems": [
    "C55_callback_once_partial",
    "C55_empty_map_refuted"
   ],
   "note": "REFUTED for map_async over an empty iterable: ready at once, callback never called (C55_empty_map_refuted). Proved for every other BasePool submission. Pool.apply_async additionally drops both callbacks: C125."
  },
  {
   "property": "C56",
   "status": "partial",
   "theorems": [
    "C56_not_released_refuted",
    "C56_released_by_lookup_partial"
   ],
   "note": "REFUTED: no key is released by destroy(), so re-creating the group raises KeyError when it registers its barrier services (C56_not_released_refuted, every key). A key is released once somebody looks it up."
  },
  {
   "property": "C57",
   "status": "proved",
   "theorems": [
    "C57_gradient",
    "C57_missing_reward"
   ],
   "note": ""
  },
  {
   "property": "C58",
   "status": "partial",
   "theorems": [
    "C58_refuted",
    "C58_partial"
   ],
   "note": "REFUTED: the ValueError branch is unreachable, an array smaller than ten times the largest parameter only warns, and a request larger than the array fails later at the first sample (C58_refuted). Proved: sampled slices have the requested size and lie inside the array."
  },
  {
   "property": "C59",
   "status": "partial",
   "theorems": [
    "C59_round_trip_partial",
    "C59_default_version_refuted",
    "C59_same_name_refuted"
   ],
   "note": "REFUTED: save(version=-1) and every other negative version writes files load never finds (C59_default_version_refuted); two modules saved under one name overwrite each other (C59_same_name_refuted). Proved for non-negative versions and distinct regular names."
  },
  {
   "property": "C60",
   "status": "partial",
   "theorems": [
    "C60_partial",
    "C60_refuted",
    "C60_update_lost"
   ],
   "note": "REFUTED for two or more parameters: all backward hooks act on the last parameter because the loop variables are read late (C60_refuted); the optimizer update of the others is lost at the next clean pass (C60_update_lost). Proved for a single parameter."
  },
  {
   "property": "C61",
   "status": "partial",
   "theorems": [
    "C61_item_partial",
    "C61_refuted",
    "C61_dunder_refuted",
    "C61_reserved_refuted"
   ],
   "note": "REFUTED: every key is a member, get never returns its default, iteration yields const_attrs and data (C61_refuted). Keys that begin with two underscores are refused with AssertionError everywhere (C61_dunder_refuted); the keys call, data, get, attr and const_attrs are not stored as settings (C61_reserved_refuted). Proved: item access."
  },
  {
   "property": "C62",
   "status": "partial",
   "theorems": [
    "C62_refuted"
   ],
   "note": "REFUTED: the interpreter passes the weak reference as first argument, which __call__ takes for the registry; deletion from it raises TypeError and the callback is never executed (C62_refuted). Nothing remains to be proved; an explicit call works, see C46."
  },
  {
   "property": "C63",
   "status": "partial",
   "theorems": [
    "C63_dict_partial",
    "C63_config_refuted"
   ],
   "note": "REFUTED for Config objects: nothing is ever filled in, and a Config of defaults contributes only const_attrs and data (C63_config_refuted). Proved for plain dictionaries."
  },
  {
   "property": "C64",
   "status": "proved",
   "theorems": [
    "C64_merge",
    "C64_const_kept",
    "C64_dict_target"
   ],
   "note": "C64_dict_target: when the target is a plain dict instead of a Config, merging anything raises AttributeError (outside the quantifier)."
  },
  {
   "property": "C65",
   "status": "proved",
   "theorems": [
    "C65_direction",
    "C65_positive",
    "C65_latest"
   ],
   "note": ""
  },
  {
   "property": "C66",
   "status": "partial",
   "theorems": [
    "C66_active_partial",
    "C66_refusal_partial",
    "C66_reset",
    "C66_repeated_refuted"
   ],
   "note": "REFUTED when one step call selects an environment twice: the later flag overwrites the earlier (C66_repeated_refuted). Proved for all call sequences without repeated indexes in a step."
  },
  {
   "property": "C67",
   "status": "proved",
   "theorems": [
    "C67_residual",
    "C67_first"
   ],
   "note": ""
  },
  {
   "property": "C68",
   "status": "partial",
   "theorems": [
    "C68_difference",
    "C68_refuted",
    "C68_partial"
   ],
   "note": "REFUTED: log_std1 is a view of the parameter that has been overwritten, so the logarithmic term vanishes (C68_difference) and the value is negative whenever deviations shrink and means stay (C68_refuted). Proved for unchanged deviations."
  },
  {
   "property": "C69",
   "status": "partial",
   "theorems": [
    "C69_refuted",
    "C69_partial"
   ],
   "note": "REFUTED for every setting other than 10: the setting is not passed on (C69_refuted). For 10 it holds (C69_partial)."
  },
  {
   "property": "C70",
   "status": "partial",
   "theorems": [
    "C70_refuted"
   ],
   "note": "REFUTED for every probability below 1: p is returned instead of 1 / p (C70_refuted). Nothing remains to be proved."
  },
  {
   "property": "C71",
   "status": "partial",
   "theorems": [
    "C71_is_set",
    "C71_flags",
    "C71_new",
    "C71_woken_partial",
    "C71_already_set_refuted",
    "C71_before_set_refuted",
    "C71_and_refuted"
   ],
   "note": "REFUTED: wait() never looks at the condition. A thread that starts to wait after the event was set sleeps until the next set() (C71_already_set_refuted); set() notifies before it sets, so the woken thread can return False (C71_before_set_refuted); one leaf of an AndEvent ends wait() with False (C71_and_refuted). Proved: is_set, and that a set() of any leaf wakes every thread that was waiting."
  },
  {
   "property": "C72",
   "status": "partial",
   "theorems": [
    "C72_bounded_partial",
    "C72_early_refuted",
    "C72_late_refuted"
   ],
   "note": "REFUTED: wait(timeout) never returns before the timeout is over (C72_early_refuted) and can take up to twice the timeout (C72_late_refuted). Proved: less than twice the timeout."
  },
  {
   "property": "C73",
   "status": "proved",
   "theorems": [
    "C73_thread",
    "C73_before_end"
   ],
   "note": ""
  },
  {
   "property": "C74",
   "status": "partial",
   "theorems": [
    "C74_no_failure",
    "C74_first_partial",
    "C74_property",
    "C74_again_refuted",
    "C74_deadlock_refuted"
   ],
   "note": "REFUTED: after watch() raised or exception was read, later watch() calls are silent (C74_again_refuted); a traceback longer than the pipe buffer makes watch() and the child wait for each other for ever (C74_deadlock_refuted). Proved: the first watch() after the end; processes that end normally."
  },
  {
   "property": "C75",
   "status": "proved",
   "theorems": [
    "C75_delivery",
    "C75_round_robin"
   ],
   "note": ""
  },
  {
   "property": "C76",
   "status": "partial",
   "theorems": [
    "C76_starvation_refuted",
    "C76_no_puts_partial"
   ],
   "note": "REFUTED: quick_get always starts at sub queue 0, so a worker that keeps its queue filled hides the others for any number of calls (C76_starvation_refuted). Proved: without further puts a waiting quick_get returns within one round."
  },
  {
   "property": "C77",
   "status": "partial",
   "theorems": [
    "C77_partial",
    "C77_refuted"
   ],
   "note": "REFUTED by assigning the attribute data (C77_refuted). Proved for every other sequence."
  },
  {
   "property": "C78",
   "status": "proved",
   "theorems": [
    "C78_counter",
    "C78_trigger_once",
    "C78_trigger_reports",
    "C78_trigger_exact"
   ],
   "note": ""
  },
  {
   "property": "C79",
   "status": "proved",
   "theorems": [
    "C79_candidates",
    "C79_memory",
    "C79_usable",
    "C79_refuses"
   ],
   "note": ""
  },
  {
   "property": "C80",
   "status": "partial",
   "theorems": [
    "C80_total_partial",
    "C80_large_model_refuted",
    "C80_degenerate_refuted",
    "C80_no_connection_refuted",
    "C80_descent_partial"
   ],
   "note": "REFUTED: a model larger than every device is accepted when the sum of the allowances suffices (C80_large_model_refuted); without model connections 0/0 makes the placement NaN and all models go to one device (C80_no_connection_refuted). Proved: the total fits."
  },
  {
   "property": "C81",
   "status": "proved",
   "theorems": [
    "C81_distance"
   ],
   "note": ""
  },
  {
   "property": "C82",
   "status": "proved",
   "theorems": [
    "C82_uniform",
    "C82_refuses",
    "C82_empty",
    "C82_generator"
   ],
   "note": ""
  },
  {
   "property": "C83",
   "status": "partial",
   "theorems": [
    "C83_refuted",
    "C83_range_refuted",
    "C83_partial",
    "C83_generator_refuted"
   ],
   "note": "REFUTED: the result of clamp is thrown away and uniform draws between mean and sigma are used (C83_refuted, C83_range_refuted); the generator does not clip either (C83_generator_refuted). C83_partial: within the clip interval if mean and sigma are."
  },
  {
   "property": "C84",
   "status": "partial",
   "theorems": [
    "C84_columns_partial",
    "C84_refuted"
   ],
   "note": "REFUTED for one parameter tuple: uniform draws are used, the noise is never below the mean (C84_refuted). C84_columns_partial: correct with one tuple per column."
  },
  {
   "property": "C85",
   "status": "proved",
   "theorems": [
    "C85_closed_form",
    "C85_reset",
    "C85_initial"
   ],
   "note": ""
  },
  {
   "property": "C86",
   "status": "partial",
   "theorems": [
    "C86_partial",
    "C86_refuted",
    "C86_default_refuted"
   ],
   "note": "REFUTED: the global generator keeps the shape of the first action (C86_refuted), and the default noise_param fails (C86_default_refuted). C86_partial: same shape or reset."
  },
  {
   "property": "C87",
   "status": "partial",
   "theorems": [
    "C87_partial",
    "C87_refuted"
   ],
   "note": "REFUTED: a module whose name begins with the name of an earlier checked module is skipped (fc1 / fc10). C87_partial: exact if no such names."
  },
  {
   "property": "C88",
   "status": "partial",
   "theorems": [
    "C88_partial",
    "C88_refuted"
   ],
   "note": "REFUTED: late binding, only the last parameter is checked. C88_partial: modules with one parameter."
  },
  {
   "property": "C89",
   "status": "partial",
   "theorems": [
    "C89_partial",
    "C89_names_partial",
    "C89_refuted",
    "C89_names_refuted"
   ],
   "note": "REFUTED: only the first row of a tensor is checked (C89_refuted, C89_names_refuted). C89_partial: tuple outputs; C89_names_partial: each value under its own name."
  },
  {
   "property": "C90",
   "status": "partial",
   "theorems": [
    "C90_values_partial",
    "C90_refuted"
   ],
   "note": "REFUTED: names are shifted by one because self is listed. C90_values_partial: every input is checked."
  },
  {
   "property": "C91",
   "status": "proved",
   "theorems": [
    "C91_targets",
    "C91_double"
   ],
   "note": ""
  },
  {
   "property": "C92",
   "status": "proved",
   "theorems": [
    "C92_epsilon_greedy",
    "C92_bounds"
   ],
   "note": ""
  },
  {
   "property": "C93",
   "status": "partial",
   "theorems": [
    "C93_rate_partial",
    "C93_steps_refuted",
    "C93_double_steps",
    "C93_unset_refuted"
   ],
   "note": "REFUTED: mode fixed_target ignores update_steps; every target update raises TypeError and the target never changes (C93_steps_refuted); neither scheme given is accepted and fails later (C93_unset_refuted). C93_rate_partial: all modes with update_rate (update_steps in mode double is C36)."
  },
  {
   "property": "C94",
   "status": "partial",
   "theorems": [
    "C94_means_partial",
    "C94_refuted"
   ],
   "note": "REFUTED for DDPG: tuple unpacking keeps only the first sample (C94_refuted). C94_means_partial: TD3, HDDPG, DDPGPer, SAC."
  },
  {
   "property": "C95",
   "status": "proved",
   "theorems": [
    "C95_td3",
    "C95_sac"
   ],
   "note": ""
  },
  {
   "property": "C96",
   "status": "proved",
   "theorems": [
    "C96_hysteretic"
   ],
   "note": ""
  },
  {
   "property": "C97",
   "status": "partial",
   "theorems": [
    "C97_refuted",
    "C97_partial",
    "C97_probabilities",
    "C97_max_prob"
   ],
   "note": "REFUTED: every batch of two or more rows raises (C97_refuted). C97_partial: single rows; the probabilities are as claimed (C97_probabilities, C97_max_prob, with exp and log as any increasing positive function and its inverse)."
  },
  {
   "property": "C98",
   "status": "partial",
   "theorems": [
    "C98_dqnper_partial",
    "C98_ddpgper_partial",
    "C98_refuted"
   ],
   "note": "REFUTED for DDPGPer: the value of the current policy action is used; priority and error can be any two numbers (C98_refuted). C98_dqnper_partial: DQNPer; C98_ddpgper_partial: stored action = current action."
  },
  {
   "property": "C99",
   "status": "proved",
   "theorems": [
    "C99_range",
    "C99_direction",
    "C99_off"
   ],
   "note": ""
  },
  {
   "property": "C100",
   "status": "partial",
   "theorems": [
    "C100_td3_partial",
    "C100_refuted"
   ],
   "note": "REFUTED for SAC: the critic ends up with the second critic's parameters, the second critic is not restored (C100_refuted). C100_td3_partial: TD3."
  },
  {
   "property": "C101",
   "status": "partial",
   "theorems": [
    "C101_td3_partial",
    "C101_refuted"
   ],
   "note": "REFUTED for SAC: schedulers of critic2 and alpha are never stepped (C101_refuted). C101_td3_partial: TD3."
  },
  {
   "property": "C102",
   "status": "proved",
   "theorems": [
    "C102_surrogate",
    "C102_loss"
   ],
   "note": ""
  },
  {
   "property": "C103",
   "status": "partial",
   "theorems": [
    "C103_partial",
    "C103_refuted"
   ],
   "note": "REFUTED: an exception while evaluating the old policy leaves the deep copy in self.actor (C103_refuted). C103_partial: runs without such an exception."
  },
  {
   "property": "C104",
   "status": "partial",
   "theorems": [
    "C104_partial",
    "C104_refuted"
   ],
   "note": "REFUTED: a batch of one sample gives nan (C104_refuted). C104_partial: at least two samples."
  },
  {
   "property": "C105",
   "status": "partial",
   "theorems": [
    "C105_refuted",
    "C105_off_partial"
   ],
   "note": "REFUTED: the discriminator optimizer was given the actor parameters; the discriminator never changes and the actor is stepped with stale gradients (C105_refuted). C105_off_partial: switched off."
  },
  {
   "property": "C106",
   "status": "partial",
   "theorems": [
    "C106_partial",
    "C106_refuted"
   ],
   "note": "REFUTED: transitions not given as dict are dropped silently (C106_refuted). C106_partial: all dicts."
  },
  {
   "property": "C107",
   "status": "partial",
   "theorems": [
    "C107_partial",
    "C107_refuted"
   ],
   "note": "REFUTED: read order is critics first, write order actors first (C107_refuted). C107_partial: written in the order actors, critics."
  },
  {
   "property": "C108",
   "status": "partial",
   "theorems": [
    "C108_without_scheduler_partial",
    "C108_one_model_partial",
    "C108_refuted"
   ],
   "note": "REFUTED with a scheduler and at least two models, whatever the arguments: the optimizer class is overwritten by its first instance, a TypeError follows (C108_refuted). C108_without_scheduler_partial, C108_one_model_partial: everything else."
  },
  {
   "property": "C109",
   "status": "partial",
   "theorems": [
    "C109_complete_arguments_partial",
    "C109_refuted"
   ],
   "note": "REFUTED: zip stops at the shortest list, the remaining servers are silently left without model and thread (C109_refuted). C109_complete_arguments_partial: argument lists that are long enough."
  },
  {
   "property": "C110",
   "status": "proved",
   "theorems": [
    "C110_model_servers",
    "C110_gradient_servers",
    "C110_twice"
   ],
   "note": ""
  },
  {
   "property": "C111",
   "status": "partial",
   "theorems": [
    "C111_refuted",
    "C111_scheduler_refuted",
    "C111_equal_models_partial"
   ],
   "note": "REFUTED: the lambdas in the comprehension bind late, both servers manage the critic (C111_refuted); with a scheduler set-up fails (C111_scheduler_refuted). C111_equal_models_partial: right exactly if all models are equal."
  },
  {
   "property": "C112",
   "status": "partial",
   "theorems": [
    "C112_constant_schedule_partial",
    "C112_versions",
    "C112_refuted"
   ],
   "note": "REFUTED: the scheduler is never stepped (C112_refuted, for every schedule whose second rate differs). C112_constant_schedule_partial: constant schedules; C112_versions: versions, proved."
  },
  {
   "property": "C113",
   "status": "partial",
   "theorems": [
    "C113_single_pass_partial",
    "C113_last_pass_only",
    "C113_refuted"
   ],
   "note": "REFUTED: zero_grad clears the gradient before every pass and the push comes after the last, so only the last pass is pushed (C113_last_pass_only for every number of passes, C113_refuted). C113_single_pass_partial: one pass each."
  },
  {
   "property": "C114",
   "status": "partial",
   "theorems": [
    "C114_after_update_partial",
    "C114_first_update_partial",
    "C114_refuted"
   ],
   "note": "REFUTED: both networks are always pushed, on a frame without earlier backward pass the push raises RuntimeError (C114_refuted), otherwise a gradient of zero is pushed (C114_after_update_partial states exactly what is pushed). C114_first_update_partial: both switched on."
  },
  {
   "property": "C115",
   "status": "partial",
   "theorems": [
    "C115_no_failure_partial",
    "C115_refuted",
    "C115_zero_times"
   ],
   "note": "REFUTED if a pass raises: syncing stays off and later acts never pull again (C115_refuted). C115_no_failure_partial: updates that do not raise; C115_zero_times: zero passes divide by zero."
  },
  {
   "property": "C116",
   "status": "partial",
   "theorems": [
    "C116_sync_off_partial",
    "C116_refuted"
   ],
   "note": "REFUTED while syncing: every _criticize pulls, a push in between mixes two critics in one advantage (C116_refuted). C116_sync_off_partial: with syncing off the stored values are those of A2C (C33, C34)."
  },
  {
   "property": "C117",
   "status": "proved",
   "theorems": [
    "C117_newest",
    "C117_frozen",
    "C117_syncing"
   ],
   "note": ""
  },
  {
   "property": "C118",
   "status": "partial",
   "theorems": [
    "C118_forwarded_partial",
    "C118_dqn_partial",
    "C118_refuted",
    "C118_distribution_refuted"
   ],
   "note": "REFUTED for DDPGApex: choose_max_prob is not passed on (C118_refuted for every base function that depends on it, C118_distribution_refuted for the distribution of ddpg.py). C118_forwarded_partial, C118_dqn_partial: the other functions and options."
  },
  {
   "property": "C119",
   "status": "partial",
   "theorems": [
    "C119_act_partial",
    "C119_episode_partial",
    "C119_refuted"
   ],
   "note": "REFUTED for criticize, which never pulls though the class documentation says so (C119_refuted). C119_act_partial: the act functions, exactly when they pull; C119_episode_partial: every episode length."
  },
  {
   "property": "C120",
   "status": "proved",
   "theorems": [
    "C120_single_writer",
    "C120_no_round_lost",
    "C120_update_steps"
   ],
   "note": ""
  },
  {
   "property": "C121",
   "status": "partial",
   "theorems": [
    "C121_none_partial",
    "C121_default_partial",
    "C121_refuted",
    "C121_impala_refuted"
   ],
   "note": "REFUTED for DQNApex, DDPGApex, PPO, TRPO and IMPALA, whose default () makes the constructor raise IndexError (C121_refuted), and for IMPALA with None, which its generated configuration contains, TypeError (C121_impala_refuted). C121_none_partial, C121_default_partial: all others."
  },
  {
   "property": "C122",
   "status": "partial",
   "theorems": [
    "C122_positions_partial",
    "C122_too_short",
    "C122_maddpg_partial",
    "C122_maddpg_actor_partial",
    "C122_refuted",
    "C122_maddpg_short_refuted"
   ],
   "note": "REFUTED for MADDPG: keyword dictionaries are unpacked with one star, keys arrive as positional arguments and values nowhere (C122_refuted for all non-empty dictionaries); with too few tuples the remaining agents have no scheduler (C122_maddpg_short_refuted). C122_positions_partial: all other algorithms; C122_maddpg_partial, C122_maddpg_actor_partial: empty dictionaries; C122_too_short: missing tuples raise."
  },
  {
   "property": "C123",
   "status": "partial",
   "theorems": [
    "C123_arrives_partial",
    "C123_default_partial",
    "C123_ddpg_apex_partial",
    "C123_refuted"
   ],
   "note": "REFUTED: DDPGApex's learning_rate is swallowed by **__, both learning rates stay at their defaults (C123_refuted). C123_ddpg_apex_partial: all its other keys; C123_arrives_partial, C123_default_partial: keyword binding in general."
  },
  {
   "property": "C124",
   "status": "proved",
   "theorems": [
    "C124_apply",
    "C124_map",
    "C124_starmap",
    "C124_ctx"
   ],
   "note": ""
  },
  {
   "property": "C125",
   "status": "partial",
   "theorems": [
    "C125_map_partial",
    "C125_refuted"
   ],
   "note": "REFUTED: Pool.apply_async drops both (C125_refuted), for Pool, P2PPool, CtxPool and the thread pools. C125_map_partial: map_async and starmap_async."
  },
  {
   "property": "C126",
   "status": "proved",
   "theorems": [
    "C126_returns_the_episode",
    "C126_every_finite_episode",
    "C126_shape"
   ],
   "note": ""
  },
  {
   "property": "C127",
   "status": "partial",
   "theorems": [
    "C127_episode_partial",
    "C127_refuted",
    "C127_switched_off_refuted"
   ],
   "note": "REFUTED: after an exception syncing stays off (C127_refuted), and set_sync(True) at the end overrides a caller who had switched it off (C127_switched_off_refuted). C127_episode_partial: episodes without exception."
  },
  {
   "property": "C128",
   "status": "partial",
   "theorems": [
    "C128_partial",
    "C128_refuted"
   ],
   "note": "REFUTED for render_every_episode = 0: ZeroDivisionError in every episode (C128_refuted). C128_partial: all other values."
  },
  {
   "property": "C129",
   "status": "partial",
   "theorems": [
    "C129_actor_critic_partial",
    "C129_discrete_partial",
    "C129_batch",
    "C129_refuted",
    "C129_batch_refuted",
    "C129_numbers_refuted",
    "C129_unsupported"
   ],
   "note": "REFUTED for continuous actions of the DDPG family: [0] on the tensor returned by act_with_noise removes the batch dimension, the transition is refused for every action size but 1 (C129_refuted) and a batch is a vector for size 1 (C129_batch_refuted). C129_actor_critic_partial, C129_discrete_partial, C129_batch: the other frameworks. TRPO and MADDPG are not supported at all (C129_unsupported). C129_numbers_refuted: numbers as observations raise TypeError."
  },
  {
   "property": "C130",
   "status": "proved",
   "theorems": [
    "C130_local",
    "C130_distributed",
    "C130_no_barrier"
   ],
   "note": ""
  },
  {
   "property": "C131",
   "status": "partial",
   "theorems": [
    "C131_one_step_episodes_partial",
    "C131_refuted",
    "C131_distributed_refuted"
   ],
   "note": "REFUTED: the first update clears the buffer, the second raises TypeError for every episode of two or more steps (C131_refuted, C131_distributed_refuted). C131_one_step_episodes_partial: episodes of one step."
  },
  {
   "property": "C132",
   "status": "partial",
   "theorems": [
    "C132_partial",
    "C132_refuted"
   ],
   "note": "REFUTED for tuples with fewer than two elements: IndexError, the remaining values are lost (C132_refuted). C132_partial: all others."
  },
  {
   "property": "C133",
   "status": "proved",
   "theorems": [
    "C133_splitext",
    "C133_search",
    "C133_artifact",
    "C133_missing",
    "C133_all_kept"
   ],
   "note": ""
  },
  {
   "property": "C134",
   "status": "partial",
   "theorems": [
    "C134_last_wins",
    "C134_counted_partial",
    "C134_steps_partial",
    "C134_refuted_zero",
    "C134_refuted_collision",
    "C134_unsupported",
    "C134_kinds"
   ],
   "note": "REFUTED: step 0 counts as no step and goes under the counter (C134_refuted_zero); a given step and the counter collide, the later image replaces the earlier (C134_refuted_collision). C134_counted_partial: no steps given; C134_steps_partial: all steps given, strictly increasing per name; C134_last_wins: what is kept in general; C134_unsupported: a refused image uses up a number."
  },
  {
   "property": "C135",
   "status": "partial",
   "theorems": [
    "C135_partial",
    "C135_others_stay",
    "C135_refuted"
   ],
   "note": "REFUTED: a plain file or link with the name of an old trial raises and the old trials listed after it stay (C135_refuted). C135_partial: the old trials are directories; C135_others_stay: nothing else is ever removed."
  },
  {
   "property": "C136",
   "status": "proved",
   "theorems": [
    "C136_clear",
    "C136_special",
    "C136_succeeds",
    "C136_nested"
   ],
   "note": ""
  },
  {
   "property": "C137",
   "status": "partial",
   "theorems": [
    "C137_only_adds",
    "C137_partial",
    "C137_refuted",
    "C137_dangling"
   ],
   "note": "REFUTED: a plain file of that name is silently accepted (C137_refuted). C137_partial: nothing but directories on the way; C137_only_adds: in all cases, also when it raises, nothing changes and only directories on the way are added."
  },
  {
   "property": "C138",
   "status": "partial",
   "theorems": [
    "C138_import",
    "C138_globals",
    "C138_objects",
    "C138_partial",
    "C138_models_partial",
    "C138_unknown_refuted",
    "C138_criterion",
    "C138_global_refuted",
    "C138_unchecked_refuted"
   ],
   "note": "REFUTED: an unknown name without a dot gives None (C138_unknown_refuted), a global that is no class raises TypeError (C138_global_refuted), attributes of torch and imported objects are not checked (C138_unchecked_refuted). C138_objects: objects in general; C138_partial, C138_models_partial: names whose candidates are of the wanted kind; C138_globals: the outermost frame wins. C138_criterion: criterion names."
  },
  {
   "property": "C139",
   "status": "partial",
   "theorems": [
    "C139_kept_partial",
    "C139_invalid_kept",
    "C139_refuted"
   ],
   "note": "REFUTED for DDPG, HDDPG, TD3, DDPGPer and SAC: the criterion instance is written into the config and a second framework cannot be built (C139_refuted). C139_kept_partial: the other algorithms; C139_invalid_kept: invalid configs."
  },
  {
   "property": "C140",
   "status": "partial",
   "theorems": [
    "C140_refuted",
    "C140_missing",
    "C140_unknown",
    "C140_partial"
   ],
   "note": "REFUTED: a loss function is accepted and then called with the constructor arguments, which raises (C140_refuted). C140_partial: loss classes."
  },
  {
   "property": "C141",
   "status": "partial",
   "theorems": [
    "C141_partial",
    "C141_refuted"
   ],
   "note": "REFUTED with fewer arguments than models: zip drops the remaining models (C141_refuted). C141_partial: equally many."
  },
  {
   "property": "C142",
   "status": "partial",
   "theorems": [
    "C142_training_partial",
    "C142_training_refuted",
    "C142_algorithm_partial",
    "C142_gpus_refuted"
   ],
   "note": "REFUTED: root_dir, episode_per_epoch, max_episodes and early_stopping_patience are replaced (C142_training_refuted), so are gpus and for distributed algorithms num_processes and num_nodes (C142_gpus_refuted). C142_training_partial, C142_algorithm_partial: all other keys."
  },
  {
   "property": "C143",
   "status": "partial",
   "theorems": [
    "C143_algorithms_partial",
    "C143_refuted",
    "C143_unknown_partial",
    "C143_base_refuted"
   ],
   "note": "REFUTED: isinstance(..., callable) raises TypeError for every valid environment (C143_refuted), and the base class TorchFramework is accepted and raises NotImplementedError (C143_base_refuted). C143_algorithms_partial, C143_unknown_partial: the rest."
  },
  {
   "property": "C144",
   "status": "partial",
   "theorems": [
    "C144_launch",
    "C144_incomplete",
    "C144_refuted"
   ],
   "note": "REFUTED for an unknown environment: AttributeError (C144_refuted). C144_launch, C144_incomplete: the rest."
  },
  {
   "property": "C145",
   "status": "partial",
   "theorems": [
    "C145_refuted"
   ],
   "note": "REFUTED: RNNDistributedBuffer, RNNPrioritizedBuffer and RNNDistributedPrioritizedBuffer pass buffer_device or storage twice along the method resolution order and raise TypeError for all arguments (C145_refuted). The other five classes: C146_accepts gives exactly the accepted arguments."
  },
  {
   "property": "C146",
   "status": "proved",
   "theorems": [
    "C146_accepts",
    "C146_storage",
    "C146_attributes",
    "C146_positional"
   ],
   "note": ""
  },
  {
   "property": "C147",
   "status": "partial",
   "theorems": [
    "C147_sound",
    "C147_partial",
    "C147_ends",
    "C147_late_refuted",
    "C147_refuted"
   ],
   "note": "REFUTED: with at least two processes a failure after another process has ended is lost, for every pair of processes (C147_refuted); once the parent joins nothing is reported (C147_late_refuted). C147_partial: a failure seen at the start of a round is reported; C147_sound: nothing else is; C147_ends: the parent ends when all processes have."
  },
  {
   "property": "C148",
   "status": "proved",
   "theorems": [
    "C148_input",
    "C148_output",
    "C148_otherwise"
   ],
   "note": ""
  },
  {
   "property": "C149",
   "status": "partial",
   "theorems": [
    "C149_accepts",
    "C149_partial",
    "C149_refuted",
    "C149_empty_refuted",
    "C149_hollow"
   ],
   "note": "REFUTED: a Sequential with its first layer on one device and the rest elsewhere is accepted but has no device (C149_refuted), and so is a module without parameters (C149_empty_refuted). C149_partial: the rest; C149_accepts: exactly what is accepted."
  },
  {
   "property": "C150",
   "status": "proved",
   "theorems": [
    "C150_dynamic",
    "C150_static"
   ],
   "note": ""
  },
  {
   "property": "C151",
   "status": "proved",
   "theorems": [
    "C151_block",
    "C151_layer"
   ],
   "note": ""
  },
  {
   "property": "C152",
   "status": "partial",
   "theorems": [
    "C152_forward",
    "C152_partial",
    "C152_refuted",
    "C152_pool_refuted",
    "C152_refused",
    "C152_invalid"
   ],
   "note": "REFUTED: depths 50, 101 and 152 raise RuntimeError for every image (C152_refuted), so do pool sizes 4, 5 and 6 (C152_pool_refuted). C152_forward: exactly when it works; C152_partial: depths 18 and 34, pool sizes 1, 2, 3, 7; C152_refused, C152_invalid: other sizes, depths and norms."
  },
  {
   "property": "C153",
   "status": "proved",
   "theorems": [
    "C153_int",
    "C153_float",
    "C153_bytes",
    "C153_video"
   ],
   "note": ""
  },
  {
   "property": "C154",
   "status": "partial",
   "theorems": [
    "C154_refuted",
    "C154_partial",
    "C154_again"
   ],
   "note": "REFUTED: every frame that is not made of bytes with channels is replaced in the list of the caller (C154_refuted). C154_partial: exactly such frames; C154_again: a second call with the same list writes the same video."
  },
  {
   "property": "C155",
   "status": "partial",
   "theorems": [
    "C155_ends",
    "C155_refuted",
    "C155_partial",
    "C155_failed",
    "C155_leak_refuted"
   ],
   "note": "REFUTED: without frames no video is written, the file stays empty and the wait never ends (C155_refuted); a raising logger leaves the file behind (C155_leak_refuted). C155_partial: the file is seen twice with the same size other than 0 and no logger raises; C155_ends: exactly when it ends; C155_failed: the encoder raises."
  },
  {
   "property": "C156",
   "status": "partial",
   "theorems": [
    "C156_partial",
    "C156_mixed",
    "C156_refuted"
   ],
   "note": "REFUTED: models without parameters give IndexError (C156_refuted). C156_partial: exactly when a type is returned; C156_mixed: exactly when RuntimeError is raised."
  },
  {
   "property": "C157",
   "status": "partial",
   "theorems": [
    "C157_partial",
    "C157_refuted",
    "C157_missing",
    "C157_once"
   ],
   "note": "REFUTED: a given world size is overwritten by that of the environment (C157_refuted). C157_partial: no world size given, or the same; C157_missing: incomplete environments; C157_once: no second world."
  },
  {
   "property": "C158",
   "status": "proved",
   "theorems": [
    "C158_steps",
    "C158_only"
   ],
   "note": "Autograd is modelled by versions of whole networks and graphs given by the networks they use; GAIL's discriminator step is C105, MADDPG is C160."
  },
  {
   "property": "C159",
   "status": "partial",
   "theorems": [
    "C159_partial",
    "C159_refuted"
   ],
   "note": "REFUTED: TRPO.update returns early on a zero policy gradient (trpo.py 243-247): the networks stay in training mode, the buffer keeps the old samples and the critic is not trained. C159_partial proves it in every other case."
  },
  {
   "property": "C160",
   "status": "partial",
   "theorems": [
    "C160_serial_partial",
    "C160_partial",
    "C160_refuted"
   ],
   "note": "REFUTED for ensemble_size >= 2: all sub-policies of an agent train its one critic at the same time, so a step may use the gradients of two losses, none, or the stale graph raises. C160_partial: ensemble_size 1, every schedule; C160_serial_partial: every ensemble size if the jobs run one after another. One operation (zero_grad, backward, ...) is atomic in the model."
  },
  {
   "property": "C161",
   "status": "partial",
   "theorems": [
    "C161_exact",
    "C161_partial",
    "C161_refuted",
    "C161_gail_refuted"
   ],
   "note": "REFUTED for DQN vanilla (dqn.py 383), TD3 and SAC, which call loss.backward() directly, and for the framework inside GAIL, which keeps its own default (C161_gail_refuted). C161_partial proves it for all others."
  },
  {
   "property": "C162",
   "status": "partial",
   "theorems": [
    "C162_exact",
    "C162_partial",
    "C162_refuted"
   ],
   "note": "REFUTED: update asks for act(..., target=True), but the parameter is called use_target and the keyword goes to **__, so the other agents' next actions come from their online actors (C162_exact is the formula of the code). C162_partial: true if online and target policies agree on the next states of the other visible agents."
  },
  {
   "property": "C163",
   "status": "partial",
   "theorems": [
    "C163_exact",
    "C163_partial",
    "C163_refuted",
    "C163_invisible_refuted"
   ],
   "note": "REFUTED: the own action is computed from next_state (maddpg.py 868-870) while the critic gets the current states; and an agent that is not in its critic's visible_actors raises ValueError after its critic was trained (C163_invisible_refuted). C163_partial: true if the policy acts the same in both states."
  },
  {
   "property": "C164",
   "status": "proved",
   "theorems": [
    "C164_soft_update",
    "C164_optimizers",
    "C164_reduce",
    "C164_projection",
    "C164_one_atom",
    "C164_impala",
    "C164_actions",
    "C164_environments",
    "C164_no_rank",
    "C164_load_nothing",
    "C164_empty",
    "C164_resnet",
    "C164_filters"
   ],
   "note": ""
  },
  {
   "property": "C165",
   "status": "partial",
   "theorems": [
    "C165_whole_episodes",
    "C165_boundaries_survive",
    "C165_after_clear_refuted",
    "C165_empty"
   ],
   "note": "REFUTED: after Buffer.clear() the episode table still lists the old episodes and every non-empty draw raises IndexError (C165_after_clear_refuted). Without clear() the claim is proved in full (C165_whole_episodes, C165_boundaries_survive)."
  },
  {
   "property": "C166",
   "status": "partial",
   "theorems": [
    "C166_partial",
    "C166_default_refuted",
    "C166_kwonly_refuted"
   ],
   "note": "REFUTED: a parameter with a default that is not in the dictionaries is passed None instead of its default (C166_default_refuted), and every signature with a keyword-only parameter fails or loses it (C166_kwonly_refuted). Everything else is C166_partial."
  },
  {
   "property": "C167",
   "status": "partial",
   "theorems": [
    "C167_tensors_partial",
    "C167_values_lost_refuted"
   ],
   "note": "REFUTED: every value that is neither a tensor nor a container (numbers, strings: all custom attributes, and rewards of unconcatenated samples) becomes None (C167_values_lost_refuted). Tensors and container structure are preserved (C167_tensors_partial)."
  },
  {
   "property": "C168",
   "status": "proved",
   "theorems": [
    "C168_device"
   ],
   "note": ""
  },
  {
   "property": "C169",
   "status": "proved",
   "theorems": [
    "C169_act",
    "C169_store_reward"
   ],
   "note": ""
  },
  {
   "property": "C170",
   "status": "proved",
   "theorems": [
    "C170_perturbed",
    "C170_small_noise"
   ],
   "note": ""
  },
  {
   "property": "C171",
   "status": "partial",
   "theorems": [
    "C171_workers_end",
    "C171_stays",
    "C171_results_frozen",
    "C171_pending_refuted"
   ],
   "note": "REFUTED: a job without result when the pool is terminated never gets one, so get() without timeout waits for ever (C171_pending_refuted). All other parts are proved."
  },
  {
   "property": "C172",
   "status": "proved",
   "theorems": [
    "C172_in_order",
    "C172_nothing_lost",
    "C172_delivered",
    "C172_discipline_needed"
   ],
   "note": "C172_discipline_needed shows that two concurrent callers of quick_put do mix up their messages."
  },
  {
   "property": "C173",
   "status": "partial",
   "theorems": [
    "C173_refuted",
    "C173_put_refuted",
    "C173_partial"
   ],
   "note": "REFUTED: a process dying inside get keeps the read lock: nothing is ever received again by get and waiting callers wait for ever, with or without time limit (C173_refuted); likewise for put (C173_put_refuted). If processes die only outside the locked regions, nothing is lost and everything can be received (C173_partial)."
  },
  {
   "property": "C174",
   "status": "partial",
   "theorems": [
    "C174_refuted",
    "C174_partial"
   ],
   "note": "REFUTED: the time limit does not cover waiting for the read lock: as long as another process is inside get, the call waits on (C174_refuted). With a free lock, and for quick_get, the claim holds (C174_partial)."
  },
  {
   "property": "C175",
   "status": "partial",
   "theorems": [
    "C175_product",
    "C175_symmetric",
    "C175_definite",
    "C175_curvature_partial",
    "C175_log_std_refuted"
   ],
   "note": "REFUTED: in the directions of action_log_std, which is a parameter of the actor, the product is damping * v only although the KL divergence is positive (C175_log_std_refuted). C175_product, C175_symmetric and C175_definite hold in general; for the parameters of the mean the product is the exact curvature (C175_curvature_partial)."
  },
  {
   "property": "C176",
   "status": "proved",
   "theorems": [
    "C176_step"
   ],
   "note": ""
  },
  {
   "property": "C177",
   "status": "partial",
   "theorems": [
    "C177_partial",
    "C177_none",
    "C177_refuted",
    "C177_equals_refuted"
   ],
   "note": "REFUTED: an expression which itself contains an equals sign (a string, a keyword argument, a comparison) makes the whole call fail with ValueError (C177_equals_refuted, C177_refuted). C177_partial proves it for all other settings."
  },
  {
   "property": "C178",
   "status": "partial",
   "theorems": [
    "C178_partial",
    "C178_keys_refuted",
    "C178_destroyed_refuted",
    "C178_dict_refuted",
    "C178_missing"
   ],
   "note": "REFUTED: keys named like attributes (get, attr, const_attrs) or with two leading underscores can be saved but not loaded (C178_keys_refuted); a save that fails because of a value or because a plain dictionary is passed destroys the old file (C178_destroyed_refuted, C178_dict_refuted). C178_partial proves the rest."
  },
  {
   "property": "C179",
   "status": "partial",
   "theorems": [
    "C179_partial",
    "C179_nan",
    "C179_integer_refuted",
    "C179_empty_refuted",
    "C179_interval_zero"
   ],
   "note": "REFUTED: a tensor of integers or without elements ends the pass with RuntimeError (C179_integer_refuted, C179_empty_refuted). C179_partial: exact records for non-empty floating point tensors; C179_nan; an interval of 0 raises (C179_interval_zero)."
  },
  {
   "property": "C180",
   "status": "partial",
   "theorems": [
    "C180_counts_calls",
    "C180_refuted",
    "C180_partial"
   ],
   "note": "REFUTED: only calls of the model are counted (C180_counts_calls); evaluation without backward passes is checked, accumulated backward passes are not (C180_refuted). C180_partial: one backward pass per call."
  },
  {
   "property": "C181",
   "status": "partial",
   "theorems": [
    "C181_partial",
    "C181_types_refuted",
    "C181_complex32_refuted"
   ],
   "note": "REFUTED: ValueError exactly if there is a tensor of type bfloat16, complex64 or complex128 (C181_types_refuted); complex32 counts twice (C181_complex32_refuted). C181_partial: all other types."
  },
  {
   "property": "C182",
   "status": "proved",
   "theorems": [
    "C182_ranks",
    "C182_numbering"
   ],
   "note": ""
  },
  {
   "property": "C183",
   "status": "proved",
   "theorems": [
    "C183_in_order",
    "C183_source",
    "C183_outside"
   ],
   "note": "torch's process groups deliver in order per source, receiver and tag"
  },
  {
   "property": "C184",
   "status": "partial",
   "theorems": [
    "C184_partial",
    "C184_length",
    "C184_a3c",
    "C184_refuted"
   ],
   "note": "REFUTED: GAIL replaces the discriminator's optimizer only, the wrapped PPO or TRPO goes on stepping the old ones while the property returns the new ones (C184_refuted). C184_partial: all other frameworks; C184_length: lists of another length; C184_a3c: A3C has none."
  },
  {
   "property": "C185",
   "status": "partial",
   "theorems": [
    "C185_partial",
    "C185_none",
    "C185_gail",
    "C185_refuted"
   ],
   "note": "REFUTED: SAC reports four schedulers and steps the first two, those of the second critic and of alpha are never stepped (C185_refuted). C185_partial: all other frameworks; C185_none, C185_gail."
  },
  {
   "property": "C186",
   "status": "proved",
   "theorems": [
    "C186_all_clear",
    "C186_nothing_else"
   ],
   "note": ""
  },
  {
   "property": "C187",
   "status": "partial",
   "theorems": [
    "C187_partial",
    "C187_quiet",
    "C187_refuted"
   ],
   "note": "REFUTED: the members answer one after another, and the sum may be larger than the number at every moment of the call (C187_refuted). C187_partial: it is the sum of the sizes the buffers had when each answered, all during the call; C187_quiet: it is the number of transitions if none is stored or removed meanwhile."
  },
  {
   "property": "C188",
   "status": "partial",
   "theorems": [
    "C188_partial",
    "C188_refuted"
   ],
   "note": "REFUTED: whenever a member has not finished its constructor, all_clear may clear the members before it and then raise KeyError (service not registered) or the exception for the missing wr_lock, which is created after the services are registered (C188_refuted). C188_partial: if all members were constructed when the call was made it never raises, and returns once everybody was asked and answered."
  },
  {
   "property": "C189",
   "status": "partial",
   "theorems": [
    "C189_partial",
    "C189_distributed_partial",
    "C189_refuted",
    "C189_distributed_refuted"
   ],
   "note": "REFUTED: the largest weight, which is normalized already, is normalized again, so a new transition gets less weight than an older one whenever norm (norm p) < norm p (C189_refuted); the distributed buffer asks for the largest weight again for every transition, so the transitions of one episode get different weights (C189_distributed_refuted). C189_partial: one weight for all, the rest unchanged, and largest if norm does not make the maximum smaller; C189_distributed_partial: the exact weights."
  },
  {
   "property": "C190",
   "status": "partial",
   "theorems": [
    "C190_partial",
    "C190_refuted"
   ],
   "note": "REFUTED: members that clear their buffers between the two rounds return nothing, so a sample can be empty whatever the weights were (C190_refuted, for every history). C190_partial: fewer than n + p always; at least n if nobody clears during the call."
  },
  {
   "property": "C191",
   "status": "proved",
   "theorems": [
    "C191_consistent"
   ],
   "note": ""
  },
  {
   "property": "C192",
   "status": "partial",
   "theorems": [
    "C192_partial",
    "C192_refuted",
    "C192_discrete",
    "C192_discrete_refuted",
    "C192_unused"
   ],
   "note": "REFUTED: for continuous actors the products differ by 2 v on action_log_std, which 'fim' ignores (C192_refuted); for discrete actors get_fim returns p where the divergence has 1 / p, contrary to its comment (C192_discrete_refuted); with an unused parameter 'direct' raises RuntimeError and 'fim' does not (C192_unused). C192_partial: continuous actors, equal on all other parameters, whatever the second derivatives of the network; C192_discrete: the direct product is the one with metric 1 / p."
  },
  {
   "property": "C193",
   "status": "partial",
   "theorems": [
    "C193_partial",
    "C193_lost",
    "C193_refuted"
   ],
   "note": "REFUTED: threads cannot be stopped and the stop signals stand behind the waiting tasks, so terminate() returns only after all waiting tasks have been executed (C193_refuted: for every execution without task limit and failing initializers); the results of all but at most one of them are never set (C193_lost). C193_partial: terminate() returns if all tasks do, and nothing begins after it has returned."
  },
  {
   "property": "C194",
   "status": "proved",
   "theorems": [
    "C194_delivered",
    "C194_ends"
   ],
   "note": ""
  },
  {
   "property": "C195",
   "status": "proved",
   "theorems": [
    "C195_agree",
    "C195_together",
    "C195_progress"
   ],
   "note": "Barriers are taken as C29 states them: they return once all members have entered; the missed wake-up of C29_refuted is not part of this model. The computations between the exchanges are arbitrary total functions (C41, C57, C38)."
  },
  {
   "property": "C196",
   "status": "proved",
   "theorems": [
    "C196_published",
    "C196_monotone",
    "C196_remanaged"
   ],
   "note": "The optimizer is an arbitrary partial function of parameters and reduced gradients; the reduction threads are those of C23."
  },
  {
   "property": "C197",
   "status": "partial",
   "theorems": [
    "C197_partial",
    "C197_refuted"
   ],
   "note": "REFUTED: `started` is never reset, so start() after stop() does nothing and no later gradient of the process is ever reduced (C197_refuted, all continuations). Proved: a stopped thread ends after finitely many of its own steps from every reachable state, and stop() then returns (C197_partial)."
  },
  {
   "property": "C198",
   "status": "proved",
   "theorems": [
    "C198_isolated",
    "C198_refused",
    "C198_constructed"
   ],
   "note": "Tensors are objects referring to memory cells; deepcopy has its memo. Custom attributes are tensors, dictionaries of tensors or plain values."
  },
  {
   "property": "C199",
   "status": "partial",
   "theorems": [
    "C199_refuted",
    "C199_partial"
   ],
   "note": "REFUTED: the transitions before the failing one stay in the storage, written over the oldest ones, while the tables of handles are unchanged; once they do not fit beside the retained episodes a handle of a retained episode gives a transition of the refused one (C199_refuted, all histories). Proved: if all copies succeed this is the store of C01; if the first fails only an episode number is lost (C199_partial)."
  },
  {
   "property": "C200",
   "status": "partial",
   "theorems": [
    "C200_partial",
    "C200_refuted",
    "C200_custom_refuted",
    "C200_selected"
   ],
   "note": "REFUTED: with concatenate=False the returned lists contain the stored tensors themselves wherever they are on the requested device, so that a write changes the stored transition (C200_refuted), and custom attributes which are not concatenated are always the stored objects (C200_custom_refuted). Proved: sampling itself changes nothing; concatenated attributes are new tensors with memory of their own, holding the values in the order of the batch, and no write into them changes anything stored (C200_partial, C200_selected)."
  },
  {
   "property": "C201",
   "status": "partial",
   "theorems": [
    "C201_partial",
    "C201_refuted"
   ],
   "note": "REFUTED: with concatenate=False sub attributes (a tensor reward or terminal) stay on the storage's device (C201_refuted). Proved: everything concatenated, and the tensors of major attributes in either case, are on the requested device (C201_partial)."
  },
  {
   "property": "C202",
   "status": "partial",
   "theorems": [
    "C202_refuted",
    "C202_partial"
   ],
   "note": "REFUTED: __reduce__ constructs a second object which is not the one in WORLD.groups, and the remote side looks only there. Pairing through it succeeds, but every use raises KeyError, even through that very object; the failed use withdraws the entry of a paired value, after which unpair raises RuntimeError, while the entry of a service stays and blocks the key for everybody (C202_refuted). Proved: what is paired or registered through the published object can be used through every object of the group (C202_partial)."
  },
  {
   "property": "C203",
   "status": "partial",
   "theorems": [
    "C203_partial",
    "C203_refuted",
    "C203_gail_refuted"
   ],
   "note": "REFUTED: the batch of an empty buffer is None, whose unpacking raises TypeError after train() has been called, so every framework except the three modes of DQN is left with all its networks in training mode (C203_refuted); for GAIL an empty buffer of the expert suffices (C203_gail_refuted). Proved: nothing is trained, no target is updated, and DQN, which samples first, is left exactly as it was (C203_partial)."
  },
  {
   "property": "C204",
   "status": "partial",
   "theorems": [
    "C204_partial",
    "C204_refuted",
    "C204_gail_refuted"
   ],
   "note": "REFUTED: with 0 passes of either network everything is done, the buffer is cleared, and ZeroDivisionError is raised instead of returning (C204_refuted, every such framework and state); GAIL without passes of the discriminator never returns (C204_gail_refuted). Proved: with at least one pass of each it returns, having done exactly the operations of C158 (C204_partial)."
  },
  {
   "property": "C205",
   "status": "partial",
   "theorems": [
    "C205_refuted",
    "C205_partial"
   ],
   "note": "REFUTED: close() of P2PPool is terminate(), so a job without result then never gets one under any schedule, and get() without timeout waits for ever (C205_refuted). Proved: results that are there stay, all workers and handlers end, and nothing more is accepted (C205_partial)."
  },
  {
   "property": "C206",
   "status": "partial",
   "theorems": [
    "C206_partial",
    "C206_restart_spec_partial",
    "C206_refuted",
    "C206_calendar"
   ],
   "note": "REFUTED: strptime accepts fields without leading zeros, strftime writes them, so every accepted name shorter than 19 characters is mapped to another directory (C206_refuted). Proved: the exact condition under which the directory is the one named (C206_restart_spec_partial), and that the name of every directory that was created works (C206_partial)."
  },
  {
   "property": "C207",
   "status": "partial",
   "theorems": [
    "C207_partial",
    "C207_refuted"
   ],
   "note": "REFUTED: the directory name has the resolution of a second (C207_refuted). Proved: trials share their directory exactly when they were created in the same second (C207_partial)."
  },
  {
   "property": "C208",
   "status": "proved",
   "theorems": [
    "C208_loads"
   ],
   "note": "C208_loads. The tensors moved by .to() in the loop are dropped; the devices are right because load_state_dict copies into the parameters."
  },
  {
   "property": "C209",
   "status": "partial",
   "theorems": [
    "C209_missing_partial",
    "C209_refuted"
   ],
   "note": "REFUTED: with an unexpected name or a wrong shape RuntimeError is raised after every parameter of the right shape has been overwritten (C209_refuted). Proved: with a missing name KeyError is raised first and nothing is changed (C209_missing_partial)."
  },
  {
   "property": "C210",
   "status": "proved",
   "theorems": [
    "C210_exactly_distributions"
   ],
   "note": "C210_exactly_distributions. Sums are exact in the model."
  },
  {
   "property": "C211",
   "status": "proved",
   "theorems": [
    "C211_actions"
   ],
   "note": "C211_actions; argmax is any function that returns a position of a largest element."
  },
  {
   "property": "C212",
   "status": "proved",
   "theorems": [
    "C212_values_and_identity",
    "C212_elements"
   ],
   "note": "C212_values_and_identity."
  },
  {
   "property": "C213",
   "status": "partial",
   "theorems": [
    "C213_by_reference_partial",
    "C213_writes_partial",
    "C213_refuted"
   ],
   "note": "REFUTED: with copy_tensor=True (the default of dumps) _reduce_full saves every tensor with a storage of its own, so no two different tensors share memory afterwards and no write to one is seen in another (C213_refuted). Proved: with copy_tensor=False sharing is kept exactly (C213_by_reference_partial)."
  },
  {
   "property": "C214",
   "status": "partial",
   "theorems": [
    "C214_partial",
    "C214_returns",
    "C214_refuted"
   ],
   "note": "REFUTED: p.join() returns as well when encoding has failed; the file then ends before the frame and nothing tells the caller, and without frames there is no file (C214_refuted). Proved: complete for all frames that can be encoded (C214_partial); wait() can always return (C214_returns)."
  },
  {
   "property": "C215",
   "status": "partial",
   "theorems": [
    "C215_partial",
    "C215_refuted"
   ],
   "note": "REFUTED: with daemon=True, the default, the process is terminated with the program; for every number of frames there is an execution that leaves exactly these frames in a file which is never closed (C215_refuted). Proved: with daemon=False the file is complete for all frames that can be encoded (C215_partial)."
  },
  {
   "property": "C216",
   "status": "partial",
   "theorems": [
    "C216_exactly_partial",
    "C216_refuted",
    "C216_raised_refuted"
   ],
   "note": "REFUTED: values of the monitored key are reduced over all processes when they are logged; if the first samples of two processes report it a different number of times (for instance because the info of an environment has the same key) nobody comes to the end (C216_refuted); neither if _log raises in one of them (C216_raised_refuted). Proved: the training ends exactly when numbers of steps and of monitored values agree (C216_exactly_partial)."
  },
  {
   "property": "C217",
   "status": "partial",
   "theorems": [
    "C217_exactly_partial",
    "C217_refuted"
   ],
   "note": "REFUTED: test_step logs every sample and has no barrier; processes that report the monitored value once per sample but have different numbers of samples block each other (C217_refuted). Proved: the test ends exactly when the total numbers of monitored values agree (C217_exactly_partial)."
  }
 ]
}