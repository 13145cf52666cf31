# Formal model of machin: design

The source under study is `/repo` (iffiX/machin at the pinned commit). Nothing of it was run; every
definition was written by reading the Python text and cites file and lines relative to `/repo`.
217 properties, 712 theorems.

## Layout

* `rocq/theories/Lib/*`: lists, finite maps, rational numbers, strings. No modelled code.
* `rocq/theories/Model/*`: executable models, one file per source area. Every definition cites its source lines;
  the header of each file lists its simplifications.
* `rocq/theories/Spec/*`: small specifications written without the model's helpers.
* `rocq/theories/Proofs/*`: lemmas connecting model and specification.
* `rocq/theories/Props/*`: the property theorems with `Print Assumptions` beneath, and concrete examples
  (`Cnn_nonvacuous`) showing that hypotheses are satisfiable and conclusions are not trivial.
* `seeded/LOG.jsonl`: one line per mutation experiment (see the end of this file).

Names: `Cnn_...` is a theorem for property `Cnn`. The suffix `_partial` marks a theorem weaker than the
property text; what is missing is said beside it and in the manifest. The suffix `_refuted` marks a theorem
showing that the faithful model violates the property; these are findings about the code. A property with a
`_refuted` theorem against its own statement has status "partial". Where a property is listed "proved" and still has a
`_refuted` theorem, that theorem concerns a case outside the property's quantifier.

## Trusted base

* The kernel of Coq 8.16.1. No `native_compute`, no plugins, no kernel check switched off.
* Axioms: none. `Print Assumptions` answers "Closed under the global context" for every theorem of the
  manifest (it is run in the `Props` files during the build). No `Axiom`, `Parameter`, `Admitted`, section-less `Variable`,
  module type or functor occurs.
* The reading of Python below, and the simplifications listed in the header of each model file.

## Modelling conventions (trusted reading of the code)

* Python exceptions are values (`res A := Ok a | Err e`). Where Python mutates state before raising, the
  model returns the mutated state together with the error.
* Floating point numbers are exact canonical rationals `Qc`. Rounding, overflow, NaN and inf are **not**
  modelled; a division by zero that matters is an explicit error or `None`. Functions such as power, logarithm,
  exponential and square root are arbitrary functions with the needed hypotheses stated in the theorem.
* Tensors are opaque values, lists or lists of lists. Devices, dtypes and autograd graphs are not modelled.
* Aliasing is modelled where the code depends on it (filter means in ARS, tensor storages in parameter noise, the
  expanded `log_std` in TRPO, handle dictionaries in the buffers); elsewhere values are immutable.
* Randomness is an oracle argument, universally quantified, with the documented contract of the generator as hypothesis.
* `dict` is an insertion-ordered association list with unique keys.
* Threads, processes and RPC are transition systems. One remote call, one lock-protected section or one
  thread-safe queue operation is one step; schedules are arbitrary step sequences. Memory-model effects, time-outs,
  sockets, pickling and operating system failures are not modelled, except where a model says so.

## Properties

The Model column names what is modelled, the Proof column how the theorems are obtained. Theorem names are in
`MANIFEST.json`; each is in `Props/` with `Print Assumptions` beneath it.

### C01 Replay buffer keeps whole episodes and returns exactly what was stored (proved)

* Model: `Buffer.v`: `TransitionStorageBasic` (ring storage), `Buffer.store_episode`, `size`, the two handle dictionaries, the "all" sampling method.
* Proof: spec `retained` = longest suffix of whole episodes that fits; refinement by an invariant over every history of stores, refused ones included.
* Theorems: `C01_spec_retained_is_longest_suffix`, `C01_all_returns_exactly_retained`, `C01_store_accepts`, `C01_store_accepts_any_history`.

### C02 Buffer size accounting (proved)

* Model: `Buffer.v`: `TransitionStorageBasic` (ring storage), `Buffer.store_episode`, `size`, the two handle dictionaries, the "all" sampling method.
* Proof: spec `retained` = longest suffix of whole episodes that fits; refinement by an invariant over every history of stores, refused ones included.
* Theorems: `C02_size`, `C02_size_bounded_any_history`.

### C03 Random sampling draws from retained transitions only (proved)

* Model: the random and random_unique sampling methods; the outcome of `random.choices/sample` is an oracle with the documented contract.
* Proof: invariant of C01 plus the contract of the oracle.
* Theorems: `C03_random_draws_retained`, `C03_random_unique_distinct_positions`.

### C04 clear() empties the buffer (partial)

* Model: `Buffer.clear`.
* Proof: refutation for every non-empty history; invariant for size().
* Theorems: `C04_clear_then_sample_refuted`, `C04_clear_then_sample_always_raises`, `C04_clear_size_partial`.
* Note: REFUTED: clear() keeps the handle dictionaries, so sampling afterwards raises IndexError (C04_clear_then_sample_refuted, and for every non-empty history C04_clear_then_sample_always_raises). Proved part: size() is 0.

### C05 A rejected store_episode leaves the buffer unchanged (partial)

* Model: error branches of `store_episode`, in source order.
* Proof: case analysis per error branch on top of the C01 invariant; refutation for oversized episodes.
* Theorems: `C05_rejected_store_keeps_samples_partial`, `C05_oversized_store_refuted`, `C05_oversized_store_corrupts`.
* Note: REFUTED for episodes longer than the buffer (C05_oversized_store_refuted / _corrupts); proved for empty episodes and missing attributes.

### C06 Batch post-processing keeps attributes aligned (proved)

* Model: `Transition.v`: `post_process_batch`, `make_tensor_from_batch`, attribute iteration of `TransitionBase`.
* Proof: spec `aligned` relates output rows to batch entries attribute by attribute; induction over the attribute list.
* Theorems: `C06_rows_aligned`, `C06_defaults`, `C06_empty_batch`, `C06_valid_transitions`, `C06_errors`.

### C07 Weight tree sums are exact after any history (proved)

* Model: `WeightTree.v`: the flattened sum tree, single / batch / full updates, checks in source order.
* Proof: spec is a function from leaf numbers to weights (`spec_run`); level structure invariant, induction over levels and over the operation history.
* Theorems: `C07_leaves_and_sums_exact`, `C07_valid_updates_succeed`, `C07_single_leaf_tree_refuted`, `C07_single_leaf_every_weight_refuted`.
* Note: Size-1 trees are outside the quantifier: single updates raise IndexError there (C07_single_leaf_tree_refuted).

### C08 Weight lookup is the inverse of the cumulative distribution (proved)

* Model: `find_leaf_index` descending the tree.
* Proof: spec is the prefix sum of the leaf function; induction over levels with the C07 invariant.
* Theorems: `C08_find_is_inverse_cdf`, `C08_find_zero`.

### C09 Single and batch priority updates agree (proved)

* Model: `WeightTree.v`: the flattened sum tree, single / batch / full updates, checks in source order.
* Proof: spec is a function from leaf numbers to weights (`spec_run`); level structure invariant, induction over levels and over the operation history.
* Theorems: `C09_single_equals_batch_of_one`, `C09_batch_equals_sequence`, `C09_all_equals_batch_up_to_max`.

### C10 get_leaf_max() is the current maximum leaf weight (partial)

* Model: `WeightTree.v`: the flattened sum tree, single / batch / full updates, checks in source order.
* Proof: spec is a function from leaf numbers to weights (`spec_run`); level structure invariant, induction over levels and over the operation history.
* Theorems: `C10_leaf_max_refuted`, `C10_leaf_max_history_partial`, `C10_leaf_max_upper_bound_partial`, `C10_lowered_leaf_refuted`.
* Note: REFUTED: max_leaf never decreases except in update_all_leaves (C10_leaf_max_refuted). Proved: it is exactly the maximum of the weights written since the last full rewrite, hence an upper bound.

### C11 Out-of-range priority updates are rejected without effect (partial)

* Model: `WeightTree.v`: the flattened sum tree, single / batch / full updates, checks in source order.
* Proof: spec is a function from leaf numbers to weights (`spec_run`); level structure invariant, induction over levels and over the operation history.
* Theorems: `C11_batch_and_read_rejected`, `C11_length_mismatch_rejected`, `C11_all_wrong_length_rejected`, `C11_all_empty_rejected`, `C11_single_rejected_partial`, `C11_index_size_refuted`, `C11_phantom_leaf_refuted`.
* Note: REFUTED for update_leaf with index == size (accepted, or IndexError after mutation). Proved for batch updates, reads, full updates and every other single index.

### C12 Stratified prioritized sampling never fails and respects proportions (proved)

* Model: `PrioritizedBuffer.v`: stratified index choice, importance weights, priorities; `(|p|+eps)**alpha` and `x**-beta` are arbitrary functions with stated hypotheses.
* Proof: C08 applied per stratum; order and normalisation lemmas on lists of rationals.
* Theorems: `C12_stratified_sampling`, `C12_indexes_sorted`, `C12_single_sample_refuted`, `C12_nothing`.
* Note: n = 1 is outside the quantifier: it raises TypeError in every state (C12_single_sample_refuted).

### C13 Prioritized buffer never returns evicted episodes (partial)

* Model: the same, plus the ring overwrite and the beta schedule.
* Proof: reachability relation `reach` recording the stored episodes; induction over it; closed form of beta.
* Theorems: `C13_evicted_sampled_refuted`, `C13_any_slot_refuted`, `C13_recent_partial`.
* Note: REFUTED: slots of evicted but not overwritten episodes keep their priorities and are sampled (C13_evicted_sampled_refuted); in every reachable buffer every stored slot whose interval begins 1e-6 below the total can be drawn, evicted or not (C13_any_slot_refuted). Proved: samples are among the last cap written transitions; and retained while nothing was evicted.

### C14 Beta annealing is monotone and bounded by one (proved)

* Model: the same, plus the ring overwrite and the beta schedule.
* Proof: reachability relation `reach` recording the stored episodes; induction over it; closed form of beta.
* Theorems: `C14_beta_closed_form`, `C14_beta_monotone_bounded`.

### C15 Recurrent buffer windows stay inside one episode (proved)

* Model: `RnnBuffer.v`: `RNNBuffer`, episode table and window sampling.
* Proof: windows of retained episodes via the C01 refinement.
* Theorems: `C15_random_windows`, `C15_unique_windows_distinct_episodes`, `C15_all_windows`, `C15_after_clear_refuted`, `C15_after_clear_always_refuted`.
* Note: for all histories of store_episode calls; C15_after_clear_refuted records that clear() leaves the episode table stale (C04 defect)

### C16 Prioritized recurrent windows stay inside one episode (partial)

* Model: `RNNPrioritizedBuffer`: leaf to window mapping.
* Proof: reachability relation `rreach`; four refutations; partial theorem for histories in which no episode wraps.
* Theorems: `C16_wrapped_episode_refuted`, `C16_short_episodes_refuted`, `C16_evicted_episode_refuted`, `C16_short_list_priorities_refuted`, `C16_no_wrap_partial`, `C16_single_refuted`, `C16_nothing`, `C16_any_short_list_priorities_refuted`.
* Note: REFUTED: RNNPrioritizedBuffer cannot even be constructed (C145), the theorems are about its methods on an object in the intended initial state; wrapped episodes raise IndexError, short episodes give windows across episodes, evicted episodes are still sampled, list priorities of short episodes raise after storing. C16_no_wrap_partial: property holds while no episode crosses the ring end, total priority > 1e-6 and draws are positive

### C17 Stale distributed priority updates are ignored (partial)

* Model: `DistBuffer.v`: version table, sample and update services as atomic steps on one member.
* Proof: history relation `dmoves`; the version of a slot counts its rewrites; refutation with clear().
* Theorems: `C17_stale_updates_ignored_partial`, `C17_clear_aba_refuted`, `C17_after_clear_refuted`, `C17_concurrent_partial`.
* Note: REFUTED with clear(): version table reset to 0 lets a stale update hit a new transition (C17_clear_aba_refuted); with a clear() in between a sampled slot takes the stale priority exactly when it was written as often after the clear as before the sample (C17_after_clear_refuted). Proved for every history in which no clear() falls between the sample and its update. Missing: clear in between (false). C17_concurrent_partial: the same for samples taken while all members store, clear and update concurrently.

### C18 Distributed priority updates reach the sampled entries (proved)

* Model: routing of a sample over the members, regrouping of priorities per member.
* Proof: bookkeeping of origins through both directions; arithmetic of shares.
* Theorems: `C18_sample_alignment`, `C18_messages`, `C18_round_trip`, `C18_share_of_one_refuted`, `C18_any_share_of_one_refuted`.
* Note: C18_share_of_one_refuted records that a member share of exactly 1 makes sampling raise TypeError; all theorems quantify over samples that return.

### C19 Distributed uniform buffer totals (proved)

* Model: `DistributedBuffer`: sizes and concatenation.
* Proof: direct, over arbitrary member lists.
* Theorems: `C19_all_size`, `C19_sample_is_concatenation`, `C19_skewed_members_refuted`, `C19_empty_raises`, `C19_any_skewed_member_refuted`.
* Note: C19_skewed_members_refuted / C19_empty_raises record that skewed members are not compensated for and that an empty group raises IndexError when sample_attrs is None.

### C20 Ordered server push is a compare-and-swap (partial)

* Model: `Servers.v`: `OrderedServerSimpleImpl._push_service/_pull_service`.
* Proof: spec is one log per key; simulation over arbitrary request sequences.
* Theorems: `C20_push_success`, `C20_compare_and_swap_partial`, `C20_version_reuse_refuted`, `C20_reused_version_lost_refuted`.
* Note: REFUTED for reuse of an older retained version number: the push succeeds but pull keeps returning the previous newest value (C20_version_reuse_refuted). Proved: success condition and no change on failure for every history; full compare-and-swap behaviour for histories without such reuse.

### C21 Ordered server keeps a bounded window of recent versions (proved)

* Model: `Servers.v`: `OrderedServerSimpleImpl._push_service/_pull_service`.
* Proof: spec is one log per key; simulation over arbitrary request sequences.
* Theorems: `C21_bounded`, `C21_most_recent`.
* Note: size bound for every history; window contents for histories that never reuse a version number, as the property says

### C22 Model server never loses an accepted update (proved)

* Model: `PushPullModelServer` clients; failed push and following pull are separate steps.
* Proof: invariant over arbitrary interleavings; versions form 1..n without gaps.
* Theorems: `C22_versions_without_gaps`, `C22_push_pull`.
* Note: each remote call atomic; a failed push and its pull are two steps that others may interleave; load_state_dict assumed to succeed

### C23 Gradient server consumes gradients exactly once, in FIFO batches (proved)

* Model: `PushPullGradServerImpl`: reducers, master queues, reduction thread in fine steps.
* Proof: conservation invariant (every pushed gradient is in exactly one place) over arbitrary schedules; queue order.
* Theorems: `C23_each_gradient_once`, `C23_in_progress`, `C23_discard_only_on_overflow`, `C23_reduction`.
* Note: any number of reducers; fine-grained steps of the reduction thread; optimizer step itself not modelled

### C24 Pool.map returns results in input order for every completion order (proved)

* Model: `Pool.v`: ApplyResult, MapResult, IMapIterator, job cache, workers.
* Proof: invariant "every chunk is in exactly one place and every result object is the function of the reports that reached it" over all schedules with worker deaths.
* Theorems: `C24_submission`, `C24_refused`, `C24_ready`, `C24_chunk_accounted`, `C24_value`, `C24_raise`, `C24_failure_raises`.
* Note: submission atomic; task functions pure; completion, result delivery, worker death and replacement scheduled arbitrarily; readiness, value, exception and accounting of every chunk. chunksize 0 given explicitly (outside the property) returns [None]*n at once.

### C25 imap yields every result once and in order (proved)

* Model: `Pool.v`: ApplyResult, MapResult, IMapIterator, job cache, workers.
* Proof: invariant "every chunk is in exactly one place and every result object is the function of the reports that reached it" over all schedules with worker deaths.
* Theorems: `C25_imap_in_order`, `C25_unordered_once`, `C25_single_items`, `C25_stop_complete`, `C25_wait_only_if_missing`, `C25_chunked_value`.
* Note: blocking wait modelled as repeated next attempts

### C26 A closed pool can always be joined (partial)

* Model: the handler threads and `join`.
* Proof: same invariant; decreasing measure of what join() waits for; refutation for empty imap.
* Theorems: `C26_cache_drained_partial`, `C26_join_returns_partial`, `C26_workers`, `C26_empty_imap_refuted`.
* Note: REFUTED for imap/imap_unordered over an empty input: the job is never removed from the cache, so neither handler thread ends unless terminate() is called (C26_empty_imap_refuted, also for a task lost with a dying worker). Proved for every other history: the cache is drained, no step adds to what join() waits for and some thread or worker can always finish.

### C27 Context pool workers keep distinct contexts (proved)

* Model: CtxPool: worker identities and contexts on repopulation.
* Proof: invariant over all maintenance / death interleavings.
* Theorems: `C27_distinct_contexts`, `C27_all_contexts_used`, `C27_replaced`.
* Note: maintenance interleaved with worker deaths; iteration order of the id set arbitrary; C27_replaced: after the deaths, a maintenance pass leaves only live workers, as many as the size.

### C28 Paired values have one owner (proved)

* Model: `World.v`: lookup tables of the RPC master, pair/unpair/register/lookup with their separate remote steps.
* Proof: history-indexed spec of ownership; invariant over every interleaving; races refuted by reachable states.
* Theorems: `C28_tables_match_history`, `C28_one_owner`, `C28_answers`, `C28_only_owner_withdraws`, `C28_pair_existing`, `C28_pair_free`, `C28_unpair_not_owner`, `C28_is_paired`, `C28_unpair_owner`, `C28_lookup_value`, `C28_single_holder_partial`, `C28_pair_lookup_race_refuted`, `C28_stale_service_call_refuted`.
* Note: the statement about the lookup tables holds for every interleaving. Additionally shown: the stored values can disagree with the table - a lookup arriving inside pair() withdraws the new entry (C28_pair_lookup_race_refuted), and calling a service its process no longer has withdraws the value entry of the same key (C28_stale_service_call_refuted, _world.py 126 passes LUTType.VALUE); one holder per key is proved for executions without such withdrawals (C28_single_holder_partial).

### C29 RPC group barrier separates phases (partial)

* Model: barrier of RpcGroup with event set/clear as separate steps.
* Proof: phase invariant for calm schedules; two refutations by schedules.
* Theorems: `C29_separates_partial`, `C29_all_can_return_partial`, `C29_early_return_refuted`, `C29_lost_wakeup_refuted`, `C29_any_early_return_refuted`, `C29_any_lost_wakeup_refuted`.
* Note: REFUTED in general: set() and clear() on the barrier event are two steps, so a member running between them passes the next barrier alone (C29_early_return_refuted), and a member released before it waits on the event never returns (C29_lost_wakeup_refuted). Both parts are proved for schedules that avoid these two windows.

### C30 RPC group creation waits for all members (proved)

* Model: create_rpc_group: registration and waiting steps.
* Proof: invariant over every interleaving; progress by constructing the finishing schedule.
* Theorems: `C30_waits_for_all`, `C30_can_return`.
* Note: all members pass the same member list; repeated creation after destruction included; RPCs do not fail

### C31 n-step returns (proved)

* Model: `Returns.v`: RAINBOW.store_episode.
* Proof: closed form by induction over the episode.
* Theorems: `C31_nstep`.
* Note: rainbow.py 256-262 additionally multiplies by discount**n while bootstrapping from the one-step next_state; outside this property

### C32 A2C returns and generalized advantages (partial)

* Model: A2C.store_episode, all branches.
* Proof: closed forms by backwards induction; truncated episodes refuted.
* Theorems: `C32_returns`, `C32_gae_partial`, `C32_gae_zero`, `C32_gae_cut`, `C32_branch_one`, `C32_branch_zero_partial`, `C32_truncated_refuted`.
* Note: REFUTED for episodes cut off before a terminal state: for every lambda other than 0 the value of the last next_state is never used (C32_truncated_refuted), while lambda=0 uses it. Proved: returns for every episode, advantages for every lambda on chained episodes ending in a terminal step, exact result on truncated ones, agreement of the special branches.

### C33 V-trace targets (partial)

* Model: IMPALA.store_episode and the v-trace loop of update.
* Proof: closed form of the backwards recursion; error term of the last step.
* Theorems: `C33_targets_partial`, `C33_independent`, `C33_last_target_refuted`, `C33_store`.
* Note: REFUTED: the last target of every episode is 0 instead of V + delta (C33_last_target_refuted). Proved: independence of the other episodes, shifted targets, and the exact formula (V-trace minus the propagated error of the last step).

### C34 Distributional projection preserves probability (partial)

* Model: `Losses.v`: RAINBOW target distribution projection.
* Proof: entry formula with the tent function; double sums over atoms.
* Theorems: `C34_entries`, `C34_nonneg`, `C34_mass_partial`, `C34_mean_partial`, `C34_mass_refuted`.
* Note: REFUTED: an image that hits an atom exactly loses its probability; a terminal step whose value is an inner atom has the zero vector as target (C34_mass_refuted, any support). Proved: exact entries, non-negativity, mass and mean when no image is an atom.

### C35 Importance weights act per sample (partial)

* Model: loss weighting of DQNPer, DDPGPer, RAINBOW with torch broadcasting of [b,1] against [b].
* Proof: algebra of means; RAINBOW refuted for every batch.
* Theorems: `C35_per_loss`, `C35_per_priorities`, `C35_rainbow_loss`, `C35_rainbow_priorities`, `C35_rainbow_refuted`, `C35_rainbow_partial`.
* Note: REFUTED for RAINBOW: the loss is mean(loss)*mean(weight) for every batch (C35_rainbow_refuted). Proved for DQNPer and DDPGPer with [batch,1] network outputs, and for RAINBOW with equal weights.

### C36 Target network tracking (proved)

* Model: `Target.v`: soft_update, hard_update, update counters of seven algorithms.
* Proof: induction over the update sequence; element-wise closed form.
* Theorems: `C36_soft_update`, `C36_soft_fixed_source`, `C36_soft_hull`, `C36_hard_update`, `C36_periodic`, `C36_init`.
* Note: networks of equal shape; optimizer arbitrary; DQN mode vanilla (target is the same object) not modelled. soft_update leaves buffers untouched.

### C37 Running statistics are exact and mergeable (proved)

* Model: `Ars.v`: RunningStat push / update.
* Proof: Welford and Chan recurrences proved equal to sum and sum of squared deviations, field arithmetic.
* Theorems: `C37_push`, `C37_merge`, `C37_empty`.

### C38 Filter synchronisation counts every observation once (partial)

* Model: MeanStdFilter, _sync_filter, ARS.act; the alias of mean and running mean is explicit.
* Proof: history induction with the multiset of observations; permutation invariance of the statistics.
* Theorems: `C38_refuted`, `C38_partial`, `C38_idle_worker_raises`.
* Note: REFUTED: in every history that completes a round with any observation at all the synchronized count exceeds the number of observations, because the manager's own observations are in both its global and its local statistics when it collects (C38_refuted); a worker that saw no observation makes the round raise KeyError (C38_idle_worker_raises). Proved: exact multiset that the synchronized statistics describe (C38_partial). Missing: the statement itself, which is false.

### C39 Normalisation statistics are frozen between apply_stats calls (partial)

* Model: MeanStdFilter, _sync_filter, ARS.act; the alias of mean and running mean is explicit.
* Proof: history induction with the multiset of observations; permutation invariance of the statistics.
* Theorems: `C39_std_partial`, `C39_mean_partial`, `C39_mean_drifts`, `C39_refuted`, `C39_any_observation_refuted`.
* Note: REFUTED: after apply_stats the filter's mean is an alias of the running mean, so it changes with later observations in place (C39_mean_drifts, C39_refuted), with every recorded observation other than the mean itself (C39_any_observation_refuted). Proved: the standard deviation in use is the one of the last apply_stats; the mean is constant until the first apply_stats.

### C40 ARS rollouts are partitioned among workers (proved)

* Model: work split, seeds, gradient pairing, noise sampler.
* Proof: arithmetic of the split; positions of concatenated lists.
* Theorems: `C40_partition`, `C40_seeds`.

### C41 ARS keeps at least the requested best rollouts (proved)

* Model: selection of the best rollouts by percentile.
* Proof: sortedness and counting.
* Theorems: `C41_selection`, `C41_distinct`.

### C42 MADDPG buffers stay aligned (partial)

* Model: `Maddpg.v`: store_episodes and joint sampling on the buffers of C01.
* Proof: relational invariant: storing does not depend on the stored values, so all buffers move in lockstep.
* Theorems: `C42_aligned_partial`, `C42_refused`, `C42_shorter`, `C42_refuted`, `C42_oversized_refuted`.
* Note: REFUTED: when the episode of a later agent lacks a required attribute, the earlier agents have already stored theirs and from then on equal positions hold different time steps (C42_refuted); oversized batches as in C42_oversized_refuted. Proved for every history of accepted stores: equal positions of all agents hold the same time step and a joint sample reads equal positions.

### C43 Model loading picks one consistent version (partial)

* Model: `LoadSave.v`: regular expression match of file names, common versions, load, save; file names are character lists.
* Proof: decimal numerals, match characterised exactly; induction over the network list.
* Theorems: `C43_partial`, `C43_one_version`, `C43_leading_zero_refuted`, `C43_name_refuted`.
* Note: REFUTED: a file name with a leading zero counts as a version but is not the file that is loaded, so the load fails after some networks were already restored (C43_leading_zero_refuted); files of a network whose name has a character outside [a-zA-Z0-9_-] are never found (C43_name_refuted). Proved for all other directories; for all directories: a load that returns used one version for all networks.

### C44 Piecewise constant learning rate (partial)

* Model: `LearningRate.v`: whole function.
* Proof: induction over the map.
* Theorems: `C44_partial`, `C44_refuted`, `C44_empty_map`.
* Note: REFUTED before the first threshold: the rate of the last entry is returned (C44_refuted). Proved for every step that has reached the first threshold, repeated thresholds included.

### C45 User settings survive generate_config (partial)

* Model: `Config.v`: Config/Object access protocol, merge_config, generate_config, fill_default.
* Proof: induction over key lists; protocol refutations.
* Theorems: `C45_refuted`, `C45_config_refuted`, `C45_partial`.
* Note: REFUTED for every setting that has a default: the default overwrites the user's value (C45_refuted, all algorithms share the code); a Config without frame_config raises TypeError (C45_config_refuted). Proved: settings without default are kept, missing ones filled in.

### C46 Finalizer runs its callback at most once (proved)

* Model: `Finalize.v`: registry, call, cancel, fork as a transition system.
* Proof: invariant over every interleaving and fork tree.
* Theorems: `C46_once`.
* Note: threads interleave between deletion of the registry entry and the callback; forked copies included; process ids are not reused and the callback does not fork

### C47 safe_call binds arguments by name (partial)

* Model: `SafeCall.v`: matching of the dictionaries with the signature.
* Proof: induction over dictionaries and signature.
* Theorems: `C47_partial`, `C47_default_demanded_refuted`, `C47_required_missed_refuted`, `C47_varargs_refuted`, `C47_required_not_demanded_refuted`.
* Note: REFUTED for signatures with positional defaults and keyword-only parameters: a parameter with default is demanded and one without is not (C47_default_demanded_refuted, C47_required_missed_refuted); with *args and no **kwargs surplus keys are passed and the call fails (C47_varargs_refuted). Proved for all other signatures.

### C48 Parameter noise is reversible (partial)

* Model: `ParamNoise.v`: pre-forward and backward hooks with explicit tensor storages (set_ shares storage), adaptive deviation.
* Proof: simulation of a two-component spec (parameters, current noise) over careful histories; refutations for all values.
* Theorems: `C48_partial`, `C48_refuted`.
* Note: REFUTED: two perturbed passes in a row with the reset switch on store the noisy parameters as the originals (C48_refuted, for all parameters and noises). Proved for every history in which noise is regenerated and the optimizer runs only while the parameters are unperturbed.

### C49 Parallel environments return results for the right environment (partial)

* Model: `ParallelEnv.v`: sub-process wrapper with command and result queues; terminal flags of both wrappers.
* Proof: schedule-indexed invariant; requests composed into sequences.
* Theorems: `C49_request_partial`, `C49_sequence_partial`, `C49_refuted`, `C49_repeated_refuted`.
* Note: REFUTED: after a failed request the next one can return the stale answer of the failed one (C49_refuted); a repeated index never returns (C49_repeated_refuted). Proved for every schedule, every selection of distinct environments and any number of requests that returned.

### C50 TRPO line search respects the trust region (proved)

* Model: `Trpo.v`: line search, conjugate gradients, flat parameters, compare_kl, get_fim.
* Proof: induction over backtracks / iterations; field arithmetic; residual recurrence equals b - A x for linear A.
* Theorems: `C50_line_search`, `C50_candidate`.
* Note: any number of backtracks of _line_search itself; that update ignores the configured number is C69. Exact rationals, no NaN.

### C51 Importance-sampling weights are normalized (proved)

* Model: `PrioritizedBuffer.v`: stratified index choice, importance weights, priorities; `(|p|+eps)**alpha` and `x**-beta` are arbitrary functions with stated hypotheses.
* Proof: C08 applied per stratum; order and normalisation lemmas on lists of rationals.
* Theorems: `C51_is_weights_normalized`, `C51_is_weights_formula`.

### C52 Transition objects are always valid (partial)

* Model: `Transition.v`: constructor, item and attribute assignment, `_check_validity`.
* Proof: the check characterised exactly; refutations of rejected and attribute assignment.
* Theorems: `C52_check_is_validity`, `C52_constructor_valid`, `C52_accepted_assignment_valid_partial`, `C52_unknown_attribute_rejected`, `C52_rejected_assignment_refuted`, `C52_errors`, `C52_rejected_stored_refuted`, `C52_setattr_ignored_refuted`.
* Note: REFUTED: a rejected item assignment stays stored (C52_rejected_assignment_refuted); attribute assignment is silently dropped (C52_setattr_ignored_refuted). Proved: the check is exactly validity, so construction and accepted item assignments are valid.

### C53 Size of a distributed prioritized sample (proved)

* Model: routing of a sample over the members, regrouping of priorities per member.
* Proof: bookkeeping of origins through both directions; arithmetic of shares.
* Theorems: `C53_distributed_sample_size`.

### C54 Every P2PPool queue keeps its own worker (partial)

* Model: P2PPool: attachment of replacement workers to queues.
* Proof: direct on `repopulate`; refutation for all n >= 2.
* Theorems: `C54_initial`, `C54_replacement_partial`, `C54_orphan_queue_refuted`.
* Note: REFUTED: replacements are always attached to queues 0,1,..., so when the worker of another queue dies that queue is left without a worker (C54_orphan_queue_refuted, every n >= 2). Holds initially and when exactly the lowest queues lost their workers.

### C55 Completion callbacks are called exactly once (partial)

* Model: `Pool.v`: ApplyResult, MapResult, IMapIterator, job cache, workers.
* Proof: invariant "every chunk is in exactly one place and every result object is the function of the reports that reached it" over all schedules with worker deaths.
* Theorems: `C55_callback_once_partial`, `C55_empty_map_refuted`.
* Note: REFUTED for map_async over an empty iterable: ready at once, callback never called (C55_empty_map_refuted). Proved for every other BasePool submission. Pool.apply_async additionally drops both callbacks: C125.

### C56 Destroying an RPC group releases its names (partial)

* Model: `World.v`: lookup tables of the RPC master, pair/unpair/register/lookup with their separate remote steps.
* Proof: history-indexed spec of ownership; invariant over every interleaving; races refuted by reachable states.
* Theorems: `C56_not_released_refuted`, `C56_released_by_lookup_partial`.
* Note: REFUTED: no key is released by destroy(), so re-creating the group raises KeyError when it registers its barrier services (C56_not_released_refuted, every key). A key is released once somebody looks it up.

### C57 ARS gradient pairs every reward with its own noise (proved)

* Model: work split, seeds, gradient pairing, noise sampler.
* Proof: arithmetic of the split; positions of concatenated lists.
* Theorems: `C57_gradient`, `C57_missing_reward`.

### C58 ARS noise array is large enough (partial)

* Model: work split, seeds, gradient pairing, noise sampler.
* Proof: arithmetic of the split; positions of concatenated lists.
* Theorems: `C58_refuted`, `C58_partial`.
* Note: REFUTED: the ValueError branch is unreachable, an array smaller than ten times the largest parameter only warns, and a request larger than the array fails later at the first sample (C58_refuted). Proved: sampled slices have the requested size and lie inside the array.

### C59 Saved models can be loaded again (partial)

* Model: `LoadSave.v`: regular expression match of file names, common versions, load, save; file names are character lists.
* Proof: decimal numerals, match characterised exactly; induction over the network list.
* Theorems: `C59_round_trip_partial`, `C59_default_version_refuted`, `C59_same_name_refuted`.
* Note: REFUTED: save(version=-1) and every other negative version writes files load never finds (C59_default_version_refuted); two modules saved under one name overwrite each other (C59_same_name_refuted). Proved for non-negative versions and distinct regular names.

### C60 Backward pass removes the parameter noise (partial)

* Model: `ParamNoise.v`: pre-forward and backward hooks with explicit tensor storages (set_ shares storage), adaptive deviation.
* Proof: simulation of a two-component spec (parameters, current noise) over careful histories; refutations for all values.
* Theorems: `C60_partial`, `C60_refuted`, `C60_update_lost`.
* Note: REFUTED for two or more parameters: all backward hooks act on the last parameter because the loop variables are read late (C60_refuted); the optimizer update of the others is lost at the next clean pass (C60_update_lost). Proved for a single parameter.

### C61 Config objects behave like dictionaries (partial)

* Model: `Config.v`: Config/Object access protocol, merge_config, generate_config, fill_default.
* Proof: induction over key lists; protocol refutations.
* Theorems: `C61_item_partial`, `C61_refuted`, `C61_dunder_refuted`, `C61_reserved_refuted`.
* Note: REFUTED: every key is a member, get never returns its default, iteration yields const_attrs and data (C61_refuted). Keys that begin with two underscores are refused with AssertionError everywhere (C61_dunder_refuted); the keys call, data, get, attr and const_attrs are not stored as settings (C61_reserved_refuted). Proved: item access.

### C62 Finalizers run when their object is collected (partial)

* Model: `Finalize.v`: registry, call, cancel, fork as a transition system.
* Proof: invariant over every interleaving and fork tree.
* Theorems: `C62_refuted`.
* Note: REFUTED: the interpreter passes the weak reference as first argument, which __call__ takes for the registry; deletion from it raises TypeError and the callback is never executed (C62_refuted). Nothing remains to be proved; an explicit call works, see C46.

### C63 fill_default keeps settings and adds the missing ones (partial)

* Model: `Config.v`: Config/Object access protocol, merge_config, generate_config, fill_default.
* Proof: induction over key lists; protocol refutations.
* Theorems: `C63_dict_partial`, `C63_config_refuted`.
* Note: REFUTED for Config objects: nothing is ever filled in, and a Config of defaults contributes only const_attrs and data (C63_config_refuted). Proved for plain dictionaries.

### C64 merge_config overwrites exactly the given keys (proved)

* Model: `Config.v`: Config/Object access protocol, merge_config, generate_config, fill_default.
* Proof: induction over key lists; protocol refutations.
* Theorems: `C64_merge`, `C64_const_kept`, `C64_dict_target`.
* Note: C64_dict_target: when the target is a plain dict instead of a Config, merging anything raises AttributeError (outside the quantifier).

### C65 Noise deviation adapts towards the target (proved)

* Model: `ParamNoise.v`: pre-forward and backward hooks with explicit tensor storages (set_ shares storage), adaptive deviation.
* Proof: simulation of a two-component spec (parameters, current noise) over careful histories; refutations for all values.
* Theorems: `C65_direction`, `C65_positive`, `C65_latest`.

### C66 active() lists the running environments (partial)

* Model: `ParallelEnv.v`: sub-process wrapper with command and result queues; terminal flags of both wrappers.
* Proof: schedule-indexed invariant; requests composed into sequences.
* Theorems: `C66_active_partial`, `C66_refusal_partial`, `C66_reset`, `C66_repeated_refuted`.
* Note: REFUTED when one step call selects an environment twice: the later flag overwrites the earlier (C66_repeated_refuted). Proved for all call sequences without repeated indexes in a step.

### C67 Conjugate gradients meet the residual threshold (proved)

* Model: `Trpo.v`: line search, conjugate gradients, flat parameters, compare_kl, get_fim.
* Proof: induction over backtracks / iterations; field arithmetic; residual recurrence equals b - A x for linear A.
* Theorems: `C67_residual`, `C67_first`.

### C68 compare_kl of the continuous TRPO actor is a KL divergence (partial)

* Model: `Trpo.v`: line search, conjugate gradients, flat parameters, compare_kl, get_fim.
* Proof: induction over backtracks / iterations; field arithmetic; residual recurrence equals b - A x for linear A.
* Theorems: `C68_difference`, `C68_refuted`, `C68_partial`.
* Note: REFUTED: log_std1 is a view of the parameter that has been overwritten, so the logarithmic term vanishes (C68_difference) and the value is negative whenever deviations shrink and means stay (C68_refuted). Proved for unchanged deviations.

### C69 line_search_backtracks bounds the line search (partial)

* Model: `Trpo.v`: line search, conjugate gradients, flat parameters, compare_kl, get_fim.
* Proof: induction over backtracks / iterations; field arithmetic; residual recurrence equals b - A x for linear A.
* Theorems: `C69_refuted`, `C69_partial`.
* Note: REFUTED for every setting other than 10: the setting is not passed on (C69_refuted). For 10 it holds (C69_partial).

### C70 get_fim of the discrete TRPO actor is the Fisher information (partial)

* Model: `Trpo.v`: line search, conjugate gradients, flat parameters, compare_kl, get_fim.
* Proof: induction over backtracks / iterations; field arithmetic; residual recurrence equals b - A x for linear A.
* Theorems: `C70_refuted`.
* Note: REFUTED for every probability below 1: p is returned instead of 1 / p (C70_refuted). Nothing remains to be proved.

### C71 Waiting on combined events (partial)

* Model: `Event.v`: registration of combined events with their leaves, the replaced set(), wait and wake-up as separate steps of a transition system; the timeout loop over clock readings.
* Proof: induction over the event tree; invariant "registered with every leaf"; position of the notifier in the parent list; refutations for every reachable state.
* Theorems: `C71_is_set`, `C71_flags`, `C71_new`, `C71_woken_partial`, `C71_already_set_refuted`, `C71_before_set_refuted`, `C71_and_refuted`.
* Note: REFUTED: wait() never looks at the condition. A thread that starts to wait after the event was set sleeps until the next set() (C71_already_set_refuted); set() notifies before it sets, so the woken thread can return False (C71_before_set_refuted); one leaf of an AndEvent ends wait() with False (C71_and_refuted). Proved: is_set, and that a set() of any leaf wakes every thread that was waiting.

### C72 wait(timeout) of combined events (partial)

* Model: `Event.v`: registration of combined events with their leaves, the replaced set(), wait and wake-up as separate steps of a transition system; the timeout loop over clock readings.
* Proof: induction over the event tree; invariant "registered with every leaf"; position of the notifier in the parent list; refutations for every reachable state.
* Theorems: `C72_bounded_partial`, `C72_early_refuted`, `C72_late_refuted`.
* Note: REFUTED: wait(timeout) never returns before the timeout is over (C72_early_refuted) and can take up to twice the timeout (C72_late_refuted). Proved: less than twice the timeout.

### C73 Thread exceptions are reported (proved)

* Model: `Watch.v`: run / exception / watch of Thread and Process; the exception pipe is a bounded byte buffer.
* Proof: byte conservation invariant over every schedule of child and owner.
* Theorems: `C73_thread`, `C73_before_end`.

### C74 Process exceptions are reported (partial)

* Model: `Watch.v`: run / exception / watch of Thread and Process; the exception pipe is a bounded byte buffer.
* Proof: byte conservation invariant over every schedule of child and owner.
* Theorems: `C74_no_failure`, `C74_first_partial`, `C74_property`, `C74_again_refuted`, `C74_deadlock_refuted`.
* Note: REFUTED: after watch() raised or exception was read, later watch() calls are silent (C74_again_refuted); a traceback longer than the pipe buffer makes watch() and the child wait for each other for ever (C74_deadlock_refuted). Proved: the first watch() after the end; processes that end normally.

### C75 MultiP2PQueue delivers every object once (proved)

* Model: `P2PQueue.v`: sub queues, round robin counter, scanning quick_get.
* Proof: conservation per sub queue over every schedule; distance of the scan position to a filled queue.
* Theorems: `C75_delivery`, `C75_round_robin`.

### C76 MultiP2PQueue does not starve a sub queue (partial)

* Model: `P2PQueue.v`: sub queues, round robin counter, scanning quick_get.
* Proof: conservation per sub queue over every schedule; distance of the scan position to a filled queue.
* Theorems: `C76_starvation_refuted`, `C76_no_puts_partial`.
* Note: REFUTED: quick_get always starts at sub queue 0, so a worker that keeps its queue filled hides the others for any number of calls (C76_starvation_refuted). Proved: without further puts a waiting quick_get returns within one round.

### C77 Constant attributes of an Object cannot be changed (partial)

* Model: `Config.v` (assignment with const_attrs) and `Helper.v` (Counter, Switch, Trigger).
* Proof: induction over operation sequences.
* Theorems: `C77_partial`, `C77_refuted`.
* Note: REFUTED by assigning the attribute data (C77_refuted). Proved for every other sequence.

### C78 Counters and triggers (proved)

* Model: `Config.v` (assignment with const_attrs) and `Helper.v` (Counter, Switch, Trigger).
* Proof: induction over operation sequences.
* Theorems: `C78_counter`, `C78_trigger_once`, `C78_trigger_reports`, `C78_trigger_exact`.

### C79 ModelAssigner uses available devices (proved)

* Model: `Assigner.v`: device selection, allowances, distance matrix, NaN propagation of 0/0 normalisations; gradient descent and argmax are arbitrary functions.
* Proof: shape invariant over the iterations; refutations independent of the optimizer.
* Theorems: `C79_candidates`, `C79_memory`, `C79_usable`, `C79_refuses`.

### C80 Assigned models fit their device (partial)

* Model: `Assigner.v`: device selection, allowances, distance matrix, NaN propagation of 0/0 normalisations; gradient descent and argmax are arbitrary functions.
* Proof: shape invariant over the iterations; refutations independent of the optimizer.
* Theorems: `C80_total_partial`, `C80_large_model_refuted`, `C80_degenerate_refuted`, `C80_no_connection_refuted`, `C80_descent_partial`.
* Note: REFUTED: a model larger than every device is accepted when the sum of the allowances suffices (C80_large_model_refuted); without model connections 0/0 makes the placement NaN and all models go to one device (C80_no_connection_refuted). Proved: the total fits.

### C81 Device distance matrix (proved)

* Model: `Assigner.v`: device selection, allowances, distance matrix, NaN propagation of 0/0 normalisations; gradient descent and argmax are arbitrary functions.
* Proof: shape invariant over the iterations; refutations independent of the optimizer.
* Theorems: `C81_distance`.

### C82 Uniform action noise (proved)

* Model: `Noise.v`: the column loop over in-place views, both parameter forms, the discarded clamp, the recurrence of the OU generator, broadcasting of shapes; draws are arguments.
* Proof: entry-wise characterisation of the column loop by induction; closed form of the recurrence by induction over the calls; refutations for all parameters outside the interval.
* Theorems: `C82_uniform`, `C82_refuses`, `C82_empty`, `C82_generator`.

### C83 Clipped normal noise (partial)

* Model: `Noise.v`: the column loop over in-place views, both parameter forms, the discarded clamp, the recurrence of the OU generator, broadcasting of shapes; draws are arguments.
* Proof: entry-wise characterisation of the column loop by induction; closed form of the recurrence by induction over the calls; refutations for all parameters outside the interval.
* Theorems: `C83_refuted`, `C83_range_refuted`, `C83_partial`, `C83_generator_refuted`.
* Note: REFUTED: the result of clamp is thrown away and uniform draws between mean and sigma are used (C83_refuted, C83_range_refuted); the generator does not clip either (C83_generator_refuted). C83_partial: within the clip interval if mean and sigma are.

### C84 Normal action noise (partial)

* Model: `Noise.v`: the column loop over in-place views, both parameter forms, the discarded clamp, the recurrence of the OU generator, broadcasting of shapes; draws are arguments.
* Proof: entry-wise characterisation of the column loop by induction; closed form of the recurrence by induction over the calls; refutations for all parameters outside the interval.
* Theorems: `C84_columns_partial`, `C84_refuted`.
* Note: REFUTED for one parameter tuple: uniform draws are used, the noise is never below the mean (C84_refuted). C84_columns_partial: correct with one tuple per column.

### C85 Ornstein-Uhlenbeck noise (proved)

* Model: `Noise.v`: the column loop over in-place views, both parameter forms, the discarded clamp, the recurrence of the OU generator, broadcasting of shapes; draws are arguments.
* Proof: entry-wise characterisation of the column loop by induction; closed form of the recurrence by induction over the calls; refutations for all parameters outside the interval.
* Theorems: `C85_closed_form`, `C85_reset`, `C85_initial`.

### C86 Ornstein-Uhlenbeck action noise keeps the shape (partial)

* Model: `Noise.v`: the column loop over in-place views, both parameter forms, the discarded clamp, the recurrence of the OU generator, broadcasting of shapes; draws are arguments.
* Proof: entry-wise characterisation of the column loop by induction; closed form of the recurrence by induction over the calls; refutations for all parameters outside the interval.
* Theorems: `C86_partial`, `C86_refuted`, `C86_default_refuted`.
* Note: REFUTED: the global generator keeps the shape of the first action (C86_refuted), and the default noise_param fails (C86_default_refuted). C86_partial: same shape or reset.

### C87 check_model checks every leaf module (partial)

* Model: `Checker.v`: named_modules of a module tree, the selection loop with startswith, late binding of closures in a loop, zip over tensors, getfullargspec.
* Proof: nested induction over module trees against a recursive specification; refutations for all names / parameters / tensors.
* Theorems: `C87_partial`, `C87_refuted`.
* Note: REFUTED: a module whose name begins with the name of an earlier checked module is skipped (fc1 / fc10). C87_partial: exact if no such names.

### C88 check_model checks every parameter (partial)

* Model: `Checker.v`: named_modules of a module tree, the selection loop with startswith, late binding of closures in a loop, zip over tensors, getfullargspec.
* Proof: nested induction over module trees against a recursive specification; refutations for all names / parameters / tensors.
* Theorems: `C88_partial`, `C88_refuted`.
* Note: REFUTED: late binding, only the last parameter is checked. C88_partial: modules with one parameter.

### C89 check_model checks all of the output (partial)

* Model: `Checker.v`: named_modules of a module tree, the selection loop with startswith, late binding of closures in a loop, zip over tensors, getfullargspec.
* Proof: nested induction over module trees against a recursive specification; refutations for all names / parameters / tensors.
* Theorems: `C89_partial`, `C89_names_partial`, `C89_refuted`, `C89_names_refuted`.
* Note: REFUTED: only the first row of a tensor is checked (C89_refuted, C89_names_refuted). C89_partial: tuple outputs; C89_names_partial: each value under its own name.

### C90 check_model names the inputs (partial)

* Model: `Checker.v`: named_modules of a module tree, the selection loop with startswith, late binding of closures in a loop, zip over tensors, getfullargspec.
* Proof: nested induction over module trees against a recursive specification; refutations for all names / parameters / tensors.
* Theorems: `C90_values_partial`, `C90_refuted`.
* Note: REFUTED: names are shifted by one because self is listed. C90_values_partial: every input is checked.

### C91 DQN regression targets (proved)

* Model: `Dqn.v`: the three target computations, epsilon-greedy acting, constructor and target update of each mode; networks, argmax tie-breaking, draws and optimizer steps are arguments.
* Proof: against an independent notion of greedy action; induction over call sequences and update sequences.
* Theorems: `C91_targets`, `C91_double`.

### C92 epsilon-greedy exploration (proved)

* Model: `Dqn.v`: the three target computations, epsilon-greedy acting, constructor and target update of each mode; networks, argmax tie-breaking, draws and optimizer steps are arguments.
* Proof: against an independent notion of greedy action; induction over call sequences and update sequences.
* Theorems: `C92_epsilon_greedy`, `C92_bounds`.

### C93 DQN target network in every mode (partial)

* Model: `Dqn.v`: the three target computations, epsilon-greedy acting, constructor and target update of each mode; networks, argmax tie-breaking, draws and optimizer steps are arguments.
* Proof: against an independent notion of greedy action; induction over call sequences and update sequences.
* Theorems: `C93_rate_partial`, `C93_steps_refuted`, `C93_double_steps`, `C93_unset_refuted`.
* Note: REFUTED: mode fixed_target ignores update_steps; every target update raises TypeError and the target never changes (C93_steps_refuted); neither scheme given is accepted and fails later (C93_unset_refuted). C93_rate_partial: all modes with update_rate (update_steps in mode double is C36).

### C94 policy losses average over the batch (partial)

* Model: `ActorCritic.v`: policy losses (including tuple unpacking of a tensor), targets, hysteretic goal, softmax scaling and Categorical.sample shapes, priorities.
* Proof: algebra over Qc; induction over batches; refutations for every batch of more than one sample.
* Theorems: `C94_means_partial`, `C94_refuted`.
* Note: REFUTED for DDPG: tuple unpacking keeps only the first sample (C94_refuted). C94_means_partial: TD3, HDDPG, DDPGPer, SAC.

### C95 pessimistic targets of TD3 and SAC (proved)

* Model: `ActorCritic.v`: policy losses (including tuple unpacking of a tensor), targets, hysteretic goal, softmax scaling and Categorical.sample shapes, priorities.
* Proof: algebra over Qc; induction over batches; refutations for every batch of more than one sample.
* Theorems: `C95_td3`, `C95_sac`.

### C96 hysteretic updates (proved)

* Model: `ActorCritic.v`: policy losses (including tuple unpacking of a tensor), targets, hysteretic goal, softmax scaling and Categorical.sample shapes, priorities.
* Proof: algebra over Qc; induction over batches; refutations for every batch of more than one sample.
* Theorems: `C96_hysteretic`.

### C97 noisy discrete actions of DDPG (partial)

* Model: `ActorCritic.v`: policy losses (including tuple unpacking of a tensor), targets, hysteretic goal, softmax scaling and Categorical.sample shapes, priorities.
* Proof: algebra over Qc; induction over batches; refutations for every batch of more than one sample.
* Theorems: `C97_refuted`, `C97_partial`, `C97_probabilities`, `C97_max_prob`.
* Note: REFUTED: every batch of two or more rows raises (C97_refuted). C97_partial: single rows; the probabilities are as claimed (C97_probabilities, C97_max_prob, with exp and log as any increasing positive function and its inverse).

### C98 new priorities are temporal difference errors (partial)

* Model: `ActorCritic.v`: policy losses (including tuple unpacking of a tensor), targets, hysteretic goal, softmax scaling and Categorical.sample shapes, priorities.
* Proof: algebra over Qc; induction over batches; refutations for every batch of more than one sample.
* Theorems: `C98_dqnper_partial`, `C98_ddpgper_partial`, `C98_refuted`.
* Note: REFUTED for DDPGPer: the value of the current policy action is used; priority and error can be any two numbers (C98_refuted). C98_dqnper_partial: DQNPer; C98_ddpgper_partial: stored action = current action.

### C99 SAC temperature (proved)

* Model: `ActorCritic.v`: temperature step and clamp, load() of SAC and TD3 on top of hard_update, scheduler counters.
* Proof: induction over updates; case analysis at the clamp bounds.
* Theorems: `C99_range`, `C99_direction`, `C99_off`.

### C100 loading restores online networks (partial)

* Model: `ActorCritic.v`: temperature step and clamp, load() of SAC and TD3 on top of hard_update, scheduler counters.
* Proof: induction over updates; case analysis at the clamp bounds.
* Theorems: `C100_td3_partial`, `C100_refuted`.
* Note: REFUTED for SAC: the critic ends up with the second critic's parameters, the second critic is not restored (C100_refuted). C100_td3_partial: TD3.

### C101 every learning rate scheduler is stepped (partial)

* Model: `ActorCritic.v`: temperature step and clamp, load() of SAC and TD3 on top of hard_update, scheduler counters.
* Proof: induction over updates; case analysis at the clamp bounds.
* Theorems: `C101_td3_partial`, `C101_refuted`.
* Note: REFUTED for SAC: schedulers of critic2 and alpha are never stepped (C101_refuted). C101_td3_partial: TD3.

### C102 PPO's clipped surrogate (proved)

* Model: `OnPolicy.v`: surrogate and loss, object identities of self.actor and tmp_actor with failing evaluations, normalisation with nan as None, parameter ownership of optimizers, list comprehension of store_expert_episode, optimizers getter and setter.
* Proof: case analysis of clamp; induction over passes, gradients and optimizer lists.
* Theorems: `C102_surrogate`, `C102_loss`.

### C103 PPO compares with the policy before the update (partial)

* Model: `OnPolicy.v`: surrogate and loss, object identities of self.actor and tmp_actor with failing evaluations, normalisation with nan as None, parameter ownership of optimizers, list comprehension of store_expert_episode, optimizers getter and setter.
* Proof: case analysis of clamp; induction over passes, gradients and optimizer lists.
* Theorems: `C103_partial`, `C103_refuted`.
* Note: REFUTED: an exception while evaluating the old policy leaves the deep copy in self.actor (C103_refuted). C103_partial: runs without such an exception.

### C104 advantage normalisation (partial)

* Model: `OnPolicy.v`: surrogate and loss, object identities of self.actor and tmp_actor with failing evaluations, normalisation with nan as None, parameter ownership of optimizers, list comprehension of store_expert_episode, optimizers getter and setter.
* Proof: case analysis of clamp; induction over passes, gradients and optimizer lists.
* Theorems: `C104_partial`, `C104_refuted`.
* Note: REFUTED: a batch of one sample gives nan (C104_refuted). C104_partial: at least two samples.

### C105 GAIL trains its discriminator (partial)

* Model: `OnPolicy.v`: surrogate and loss, object identities of self.actor and tmp_actor with failing evaluations, normalisation with nan as None, parameter ownership of optimizers, list comprehension of store_expert_episode, optimizers getter and setter.
* Proof: case analysis of clamp; induction over passes, gradients and optimizer lists.
* Theorems: `C105_refuted`, `C105_off_partial`.
* Note: REFUTED: the discriminator optimizer was given the actor parameters; the discriminator never changes and the actor is stepped with stale gradients (C105_refuted). C105_off_partial: switched off.

### C106 GAIL stores expert episodes completely (partial)

* Model: `OnPolicy.v`: surrogate and loss, object identities of self.actor and tmp_actor with failing evaluations, normalisation with nan as None, parameter ownership of optimizers, list comprehension of store_expert_episode, optimizers getter and setter.
* Proof: case analysis of clamp; induction over passes, gradients and optimizer lists.
* Theorems: `C106_partial`, `C106_refuted`.
* Note: REFUTED: transitions not given as dict are dropped silently (C106_refuted). C106_partial: all dicts.

### C107 MADDPG optimizers can be read and set (partial)

* Model: `OnPolicy.v`: surrogate and loss, object identities of self.actor and tmp_actor with failing evaluations, normalisation with nan as None, parameter ownership of optimizers, list comprehension of store_expert_episode, optimizers getter and setter.
* Proof: case analysis of clamp; induction over passes, gradients and optimizer lists.
* Theorems: `C107_partial`, `C107_refuted`.
* Note: REFUTED: read order is critics first, write order actors first (C107_refuted). C107_partial: written in the order actors, critics.

### C108 Gradient servers are set up as configured (partial)

* Model: `ServerHelp.v`: the zip loop with the rebinding of optimizer, the or-defaults, names and pairing of the servers, late binding in A3C.init_from_config, the primary branch of _task_reduce_grad.
* Proof: induction over the zipped lists against a per-index specification; injectivity of decimal rendering; refutations for all arguments.
* Theorems: `C108_without_scheduler_partial`, `C108_one_model_partial`, `C108_refuted`.
* Note: REFUTED with a scheduler and at least two models, whatever the arguments: the optimizer class is overwritten by its first instance, a TypeError follows (C108_refuted). C108_without_scheduler_partial, C108_one_model_partial: everything else.

### C109 No gradient server is left without a model (partial)

* Model: `ServerHelp.v`: the zip loop with the rebinding of optimizer, the or-defaults, names and pairing of the servers, late binding in A3C.init_from_config, the primary branch of _task_reduce_grad.
* Proof: induction over the zipped lists against a per-index specification; injectivity of decimal rendering; refutations for all arguments.
* Theorems: `C109_complete_arguments_partial`, `C109_refuted`.
* Note: REFUTED: zip stops at the shortest list, the remaining servers are silently left without model and thread (C109_refuted). C109_complete_arguments_partial: argument lists that are long enough.

### C110 Server accessors belong to the servers of the same index (proved)

* Model: `ServerHelp.v`: the zip loop with the rebinding of optimizer, the or-defaults, names and pairing of the servers, late binding in A3C.init_from_config, the primary branch of _task_reduce_grad.
* Proof: induction over the zipped lists against a per-index specification; injectivity of decimal rendering; refutations for all arguments.
* Theorems: `C110_model_servers`, `C110_gradient_servers`, `C110_twice`.

### C111 The gradient servers of A3C manage the configured models (partial)

* Model: `ServerHelp.v`: the zip loop with the rebinding of optimizer, the or-defaults, names and pairing of the servers, late binding in A3C.init_from_config, the primary branch of _task_reduce_grad.
* Proof: induction over the zipped lists against a per-index specification; injectivity of decimal rendering; refutations for all arguments.
* Theorems: `C111_refuted`, `C111_scheduler_refuted`, `C111_equal_models_partial`.
* Note: REFUTED: the lambdas in the comprehension bind late, both servers manage the critic (C111_refuted); with a scheduler set-up fails (C111_scheduler_refuted). C111_equal_models_partial: right exactly if all models are equal.

### C112 A gradient server follows its learning rate schedule (partial)

* Model: `ServerHelp.v`: the zip loop with the rebinding of optimizer, the or-defaults, names and pairing of the servers, late binding in A3C.init_from_config, the primary branch of _task_reduce_grad.
* Proof: induction over the zipped lists against a per-index specification; injectivity of decimal rendering; refutations for all arguments.
* Theorems: `C112_constant_schedule_partial`, `C112_versions`, `C112_refuted`.
* Note: REFUTED: the scheduler is never stepped (C112_refuted, for every schedule whose second rate differs). C112_constant_schedule_partial: constant schedules; C112_versions: versions, proved.

### C113 A3C pushes the gradients of every pass (partial)

* Model: `A3c.v`: update with zero_grad/backward/push per pass and its exceptions, is_syncing, act and _criticize with the server's answers as oracle.
* Proof: induction over passes, actions and episodes.
* Theorems: `C113_single_pass_partial`, `C113_last_pass_only`, `C113_refuted`.
* Note: REFUTED: zero_grad clears the gradient before every pass and the push comes after the last, so only the last pass is pushed (C113_last_pass_only for every number of passes, C113_refuted). C113_single_pass_partial: one pass each.

### C114 Networks switched off in an A3C update are left alone (partial)

* Model: `A3c.v`: update with zero_grad/backward/push per pass and its exceptions, is_syncing, act and _criticize with the server's answers as oracle.
* Proof: induction over passes, actions and episodes.
* Theorems: `C114_after_update_partial`, `C114_first_update_partial`, `C114_refuted`.
* Note: REFUTED: both networks are always pushed, on a frame without earlier backward pass the push raises RuntimeError (C114_refuted), otherwise a gradient of zero is pushed (C114_after_update_partial states exactly what is pushed). C114_first_update_partial: both switched on.

### C115 An A3C update leaves syncing as it was (partial)

* Model: `A3c.v`: update with zero_grad/backward/push per pass and its exceptions, is_syncing, act and _criticize with the server's answers as oracle.
* Proof: induction over passes, actions and episodes.
* Theorems: `C115_no_failure_partial`, `C115_refuted`, `C115_zero_times`.
* Note: REFUTED if a pass raises: syncing stays off and later acts never pull again (C115_refuted). C115_no_failure_partial: updates that do not raise; C115_zero_times: zero passes divide by zero.

### C116 The advantages of one episode come from one critic (partial)

* Model: `A3c.v`: update with zero_grad/backward/push per pass and its exceptions, is_syncing, act and _criticize with the server's answers as oracle.
* Proof: induction over passes, actions and episodes.
* Theorems: `C116_sync_off_partial`, `C116_refuted`.
* Note: REFUTED while syncing: every _criticize pulls, a push in between mixes two critics in one advantage (C116_refuted). C116_sync_off_partial: with syncing off the stored values are those of A2C (C33, C34).

### C117 Parameters used by an A3C action (proved)

* Model: `A3c.v`: update with zero_grad/backward/push per pass and its exceptions, is_syncing, act and _criticize with the server's answers as oracle.
* Proof: induction over passes, actions and episodes.
* Theorems: `C117_newest`, `C117_frozen`, `C117_syncing`.

### C118 Apex frameworks honour the options of their base class (partial)

* Model: `Apex.v`: the pull guard of every act function, criticize, learner updates as steps of `Servers.v`.
* Proof: case analysis; single-writer invariant by induction over any interleaving on top of the server invariant of C40-C44.
* Theorems: `C118_forwarded_partial`, `C118_dqn_partial`, `C118_refuted`, `C118_distribution_refuted`.
* Note: REFUTED for DDPGApex: choose_max_prob is not passed on (C118_refuted for every base function that depends on it, C118_distribution_refuted for the distribution of ddpg.py). C118_forwarded_partial, C118_dqn_partial: the other functions and options.

### C119 Apex samplers pull before acting (partial)

* Model: `Apex.v`: the pull guard of every act function, criticize, learner updates as steps of `Servers.v`.
* Proof: case analysis; single-writer invariant by induction over any interleaving on top of the server invariant of C40-C44.
* Theorems: `C119_act_partial`, `C119_episode_partial`, `C119_refuted`.
* Note: REFUTED for criticize, which never pulls though the class documentation says so (C119_refuted). C119_act_partial: the act functions, exactly when they pull; C119_episode_partial: every episode length.

### C120 Several Apex learners do not lose updates (proved)

* Model: `Apex.v`: the pull guard of every act function, criticize, learner updates as steps of `Servers.v`.
* Proof: case analysis; single-writer invariant by induction over any interleaving on top of the server invariant of C40-C44.
* Theorems: `C120_single_writer`, `C120_no_round_lost`, `C120_update_steps`.

### C121 A scheduler class alone is enough (partial)

* Model: `Construct.v`: table of optimizers and argument indices per algorithm, None filling, defaults, MADDPG's positional unpacking, keyword binding.
* Proof: case analysis over algorithms, induction over wiring and zip.
* Theorems: `C121_none_partial`, `C121_default_partial`, `C121_refuted`, `C121_impala_refuted`.
* Note: REFUTED for DQNApex, DDPGApex, PPO, TRPO and IMPALA, whose default () makes the constructor raise IndexError (C121_refuted), and for IMPALA with None, which its generated configuration contains, TypeError (C121_impala_refuted). C121_none_partial, C121_default_partial: all others.

### C122 Every optimizer gets its own scheduler arguments (partial)

* Model: `Construct.v`: table of optimizers and argument indices per algorithm, None filling, defaults, MADDPG's positional unpacking, keyword binding.
* Proof: case analysis over algorithms, induction over wiring and zip.
* Theorems: `C122_positions_partial`, `C122_too_short`, `C122_maddpg_partial`, `C122_maddpg_actor_partial`, `C122_refuted`, `C122_maddpg_short_refuted`.
* Note: REFUTED for MADDPG: keyword dictionaries are unpacked with one star, keys arrive as positional arguments and values nowhere (C122_refuted for all non-empty dictionaries); with too few tuples the remaining agents have no scheduler (C122_maddpg_short_refuted). C122_positions_partial: all other algorithms; C122_maddpg_partial, C122_maddpg_actor_partial: empty dictionaries; C122_too_short: missing tuples raise.

### C123 Every configuration key has an effect (partial)

* Model: `Construct.v`: table of optimizers and argument indices per algorithm, None filling, defaults, MADDPG's positional unpacking, keyword binding.
* Proof: case analysis over algorithms, induction over wiring and zip.
* Theorems: `C123_arrives_partial`, `C123_default_partial`, `C123_ddpg_apex_partial`, `C123_refuted`.
* Note: REFUTED: DDPGApex's learning_rate is swallowed by **__, both learning rates stay at their defaults (C123_refuted). C123_ddpg_apex_partial: all its other keys; C123_arrives_partial, C123_default_partial: keyword binding in general.

### C124 Pools evaluate the submitted function on the submitted arguments (proved)

* Model: `PoolProxy.v`: what each submission function hands to BasePool and what the proxies evaluate; serialisation is assumed invertible (hypothesis load (dump f) = f).
* Proof: map fusion, for all lists.
* Theorems: `C124_apply`, `C124_map`, `C124_starmap`, `C124_ctx`.

### C125 Callbacks are handed to the pool (partial)

* Model: `PoolProxy.v`: what each submission function hands to BasePool and what the proxies evaluate; serialisation is assumed invertible (hypothesis load (dump f) = f).
* Proof: map fusion, for all lists.
* Theorems: `C125_map_partial`, `C125_refuted`.
* Note: REFUTED: Pool.apply_async drops both (C125_refuted), for Pool, P2PPool, CtxPool and the thread pools. C125_map_partial: map_async and starmap_async.

### C126 A dataset item is the episode that was played (proved)

* Model: `GymData.v`: one round of the loop with its exceptions, fuel for the while loop, choice of act method and of the stored action per framework, tensors of up to two dimensions.
* Proof: loop invariant against an inductive episode relation, determinism for completeness; case analysis over frameworks.
* Theorems: `C126_returns_the_episode`, `C126_every_finite_episode`, `C126_shape`.

### C127 Playing an episode leaves syncing as it was (partial)

* Model: `GymData.v`: one round of the loop with its exceptions, fuel for the while loop, choice of act method and of the stored action per framework, tensors of up to two dimensions.
* Proof: loop invariant against an inductive episode relation, determinism for completeness; case analysis over frameworks.
* Theorems: `C127_episode_partial`, `C127_refuted`, `C127_switched_off_refuted`.
* Note: REFUTED: after an exception syncing stays off (C127_refuted), and set_sync(True) at the end overrides a caller who had switched it off (C127_switched_off_refuted). C127_episode_partial: episodes without exception.

### C128 Every n-th episode is rendered (partial)

* Model: `GymData.v`: one round of the loop with its exceptions, fuel for the while loop, choice of act method and of the stored action per framework, tensors of up to two dimensions.
* Proof: loop invariant against an inductive episode relation, determinism for completeness; case analysis over frameworks.
* Theorems: `C128_partial`, `C128_refuted`.
* Note: REFUTED for render_every_episode = 0: ZeroDivisionError in every episode (C128_refuted). C128_partial: all other values.

### C129 Stored actions can be used for training (partial)

* Model: `GymData.v`: one round of the loop with its exceptions, fuel for the while loop, choice of act method and of the stored action per framework, tensors of up to two dimensions.
* Proof: loop invariant against an inductive episode relation, determinism for completeness; case analysis over frameworks.
* Theorems: `C129_actor_critic_partial`, `C129_discrete_partial`, `C129_batch`, `C129_refuted`, `C129_batch_refuted`, `C129_numbers_refuted`, `C129_unsupported`.
* Note: REFUTED for continuous actions of the DDPG family: [0] on the tensor returned by act_with_noise removes the batch dimension, the transition is refused for every action size but 1 (C129_refuted) and a batch is a vector for size 1 (C129_batch_refuted). C129_actor_critic_partial, C129_discrete_partial, C129_batch: the other frameworks. TRPO and MADDPG are not supported at all (C129_unsupported). C129_numbers_refuted: numbers as observations raise TypeError.

### C130 Events of a training step (proved)

* Model: `Launch.v`: training steps over an abstract frame with an event list; the on-policy buffer; dispatch of _log.
* Proof: induction over samples, updates and log entries.
* Theorems: `C130_local`, `C130_distributed`, `C130_no_barrier`.

### C131 Training steps work with on-policy frameworks (partial)

* Model: `Launch.v`: training steps over an abstract frame with an event list; the on-policy buffer; dispatch of _log.
* Proof: induction over samples, updates and log entries.
* Theorems: `C131_one_step_episodes_partial`, `C131_refuted`, `C131_distributed_refuted`.
* Note: REFUTED: the first update clears the buffer, the second raises TypeError for every episode of two or more steps (C131_refuted, C131_distributed_refuted). C131_one_step_episodes_partial: episodes of one step.

### C132 Every logged value is reported once (partial)

* Model: `Launch.v`: training steps over an abstract frame with an event list; the on-policy buffer; dispatch of _log.
* Proof: induction over samples, updates and log entries.
* Theorems: `C132_partial`, `C132_refuted`.
* Note: REFUTED for tuples with fewer than two elements: IndexError, the remaining values are lost (C132_refuted). C132_partial: all others.

### C133 Logged artifacts are never overwritten (proved)

* Model: `MediaLog.v`: the file system as a dictionary, splitext and basename on character lists, the search for a free name with fuel, counters per log name.
* Proof: pigeonhole over the injective candidates; last write wins over call histories.
* Theorems: `C133_splitext`, `C133_search`, `C133_artifact`, `C133_missing`, `C133_all_kept`.

### C134 Logged images are kept under their step (partial)

* Model: `MediaLog.v`: the file system as a dictionary, splitext and basename on character lists, the search for a free name with fuel, counters per log name.
* Proof: pigeonhole over the injective candidates; last write wins over call histories.
* Theorems: `C134_last_wins`, `C134_counted_partial`, `C134_steps_partial`, `C134_refuted_zero`, `C134_refuted_collision`, `C134_unsupported`, `C134_kinds`.
* Note: REFUTED: step 0 counts as no step and goes under the counter (C134_refuted_zero); a given step and the counter collide, the later image replaces the earlier (C134_refuted_collision). C134_counted_partial: no steps given; C134_steps_partial: all steps given, strictly increasing per name; C134_last_wins: what is kept in general; C134_unsupported: a refused image uses up a number.

### C135 Exactly the old trials are removed (partial)

* Model: `SaveEnv.v`: directory listings; trees as dictionaries of component lists with mkdir, makedirs, unlink, rmtree.
* Proof: induction over listings, children and paths with a well-formedness invariant.
* Theorems: `C135_partial`, `C135_others_stay`, `C135_refuted`.
* Note: REFUTED: a plain file or link with the name of an old trial raises and the old trials listed after it stay (C135_refuted). C135_partial: the old trials are directories; C135_others_stay: nothing else is ever removed.

### C136 Clearing directories (proved)

* Model: `SaveEnv.v`: directory listings; trees as dictionaries of component lists with mkdir, makedirs, unlink, rmtree.
* Proof: induction over listings, children and paths with a well-formedness invariant.
* Theorems: `C136_clear`, `C136_special`, `C136_succeeds`, `C136_nested`.

### C137 Creating directories (partial)

* Model: `SaveEnv.v`: directory listings; trees as dictionaries of component lists with mkdir, makedirs, unlink, rmtree.
* Proof: induction over listings, children and paths with a well-formedness invariant.
* Theorems: `C137_only_adds`, `C137_partial`, `C137_refuted`, `C137_dangling`.
* Note: REFUTED: a plain file of that name is silently accepted (C137_refuted). C137_partial: nothing but directories on the way; C137_only_adds: in all cases, also when it raises, nothing changes and only directories on the way are added.

### C138 Names in a config resolve to classes of the wanted kind (partial)

* Model: `Resolve.v`: the four resolvers over abstract objects, the globals of a call stack, dotted imports; init_from_config of the non-distributed algorithms.
* Proof: case analysis; induction over frames and models.
* Theorems: `C138_import`, `C138_globals`, `C138_objects`, `C138_partial`, `C138_models_partial`, `C138_unknown_refuted`, `C138_criterion`, `C138_global_refuted`, `C138_unchecked_refuted`.
* Note: REFUTED: an unknown name without a dot gives None (C138_unknown_refuted), a global that is no class raises TypeError (C138_global_refuted), attributes of torch and imported objects are not checked (C138_unchecked_refuted). C138_objects: objects in general; C138_partial, C138_models_partial: names whose candidates are of the wanted kind; C138_globals: the outermost frame wins. C138_criterion: criterion names.

### C139 Initialising from a config leaves the config alone (partial)

* Model: `Resolve.v`: the four resolvers over abstract objects, the globals of a call stack, dotted imports; init_from_config of the non-distributed algorithms.
* Proof: case analysis; induction over frames and models.
* Theorems: `C139_kept_partial`, `C139_invalid_kept`, `C139_refuted`.
* Note: REFUTED for DDPG, HDDPG, TD3, DDPGPer and SAC: the criterion instance is written into the config and a second framework cannot be built (C139_refuted). C139_kept_partial: the other algorithms; C139_invalid_kept: invalid configs.

### C140 Every accepted criterion can be used (partial)

* Model: `Resolve.v`: the four resolvers over abstract objects, the globals of a call stack, dotted imports; init_from_config of the non-distributed algorithms.
* Proof: case analysis; induction over frames and models.
* Theorems: `C140_refuted`, `C140_missing`, `C140_unknown`, `C140_partial`.
* Note: REFUTED: a loss function is accepted and then called with the constructor arguments, which raises (C140_refuted). C140_partial: loss classes.

### C141 Every configured model is built (partial)

* Model: `Resolve.v`: the four resolvers over abstract objects, the globals of a call stack, dotted imports; init_from_config of the non-distributed algorithms.
* Proof: case analysis; induction over frames and models.
* Theorems: `C141_partial`, `C141_refuted`.
* Note: REFUTED with fewer arguments than models: zip drops the remaining models (C141_refuted). C141_partial: equally many.

### C142 Generated configs keep the given settings (partial)

* Model: `AutoConfig.v`: configs as dictionaries, namespaces as tables.
* Proof: dictionary lemmas, case analysis.
* Theorems: `C142_training_partial`, `C142_training_refuted`, `C142_algorithm_partial`, `C142_gpus_refuted`.
* Note: REFUTED: root_dir, episode_per_epoch, max_episodes and early_stopping_patience are replaced (C142_training_refuted), so are gpus and for distributed algorithms num_processes and num_nodes (C142_gpus_refuted). C142_training_partial, C142_algorithm_partial: all other keys.

### C143 Valid names give a config (partial)

* Model: `AutoConfig.v`: configs as dictionaries, namespaces as tables.
* Proof: dictionary lemmas, case analysis.
* Theorems: `C143_algorithms_partial`, `C143_refuted`, `C143_unknown_partial`, `C143_base_refuted`.
* Note: REFUTED: isinstance(..., callable) raises TypeError for every valid environment (C143_refuted), and the base class TorchFramework is accepted and raises NotImplementedError (C143_base_refuted). C143_algorithms_partial, C143_unknown_partial: the rest.

### C144 Only complete configs are launched (partial)

* Model: `AutoConfig.v`: configs as dictionaries, namespaces as tables.
* Proof: dictionary lemmas, case analysis.
* Theorems: `C144_launch`, `C144_incomplete`, `C144_refuted`.
* Note: REFUTED for an unknown environment: AttributeError (C144_refuted). C144_launch, C144_incomplete: the rest.

### C145 Every buffer class can be constructed (partial)

* Model: `BufferInit.v`: Python's calling convention, C3 linearisation and the cooperative constructors of the eight buffer classes.
* Proof: computation of the resolution order once per class, then case analysis over arbitrary argument lists.
* Theorems: `C145_refuted`.
* Note: REFUTED: RNNDistributedBuffer, RNNPrioritizedBuffer and RNNDistributedPrioritizedBuffer pass buffer_device or storage twice along the method resolution order and raise TypeError for all arguments (C145_refuted). The other five classes: C146_accepts gives exactly the accepted arguments.

### C146 Constructors of the remaining buffers (proved)

* Model: `BufferInit.v`: Python's calling convention, C3 linearisation and the cooperative constructors of the eight buffer classes.
* Proof: computation of the resolution order once per class, then case analysis over arbitrary argument lists.
* Theorems: `C146_accepts`, `C146_storage`, `C146_attributes`, `C146_positional`.

### C147 Failed processes are reported by spawn (partial)

* Model: `Spawn.v`: processes, pipes and the parent's loop as a transition system with arbitrary schedules.
* Proof: invariants over schedules; explicit schedules for every number of processes.
* Theorems: `C147_sound`, `C147_partial`, `C147_ends`, `C147_late_refuted`, `C147_refuted`.
* Note: REFUTED: with at least two processes a failure after another process has ended is lost, for every pair of processes (C147_refuted); once the parent joins nothing is reported (C147_late_refuted). C147_partial: a failure seen at the start of a round is reported; C147_sound: nothing else is; C147_ends: the parent ends when all processes have.

### C148 Device properties of modules (proved)

* Model: `NetModule.v`: module trees with devices, the device properties and setters.
* Proof: structural induction over trees.
* Theorems: `C148_input`, `C148_output`, `C148_otherwise`.

### C149 Accepted input and output modules give a device (partial)

* Model: `NetModule.v`: module trees with devices, the device properties and setters.
* Proof: structural induction over trees.
* Theorems: `C149_accepts`, `C149_partial`, `C149_refuted`, `C149_empty_refuted`, `C149_hollow`.
* Note: REFUTED: a Sequential with its first layer on one device and the rest elsewhere is accepted but has no device (C149_refuted), and so is a module without parameters (C149_empty_refuted). C149_partial: the rest; C149_accepts: exactly what is accepted.

### C150 Wrappers give modules their devices (proved)

* Model: `NetModule.v`: module trees with devices, the device properties and setters.
* Proof: structural induction over trees.
* Theorems: `C150_dynamic`, `C150_static`.

### C151 Shapes in residual blocks (proved)

* Model: `ResNet.v`: the shape of every intermediate tensor over Z.
* Proof: division lemmas; induction over the blocks of a layer; case analysis over pool sizes.
* Theorems: `C151_block`, `C151_layer`.

### C152 ResNet gives out_planes features (partial)

* Model: `ResNet.v`: the shape of every intermediate tensor over Z.
* Proof: division lemmas; induction over the blocks of a layer; case analysis over pool sizes.
* Theorems: `C152_forward`, `C152_partial`, `C152_refuted`, `C152_pool_refuted`, `C152_refused`, `C152_invalid`.
* Note: REFUTED: depths 50, 101 and 152 raise RuntimeError for every image (C152_refuted), so do pool sizes 4, 5 and 6 (C152_pool_refuted). C152_forward: exactly when it works; C152_partial: depths 18 and 34, pool sizes 1, 2, 3, 7; C152_refused, C152_invalid: other sizes, depths and norms.

### C153 Images are converted faithfully (proved)

* Model: `MediaConv.v`: images as nested lists of integers or rationals, the float cast outside its range arbitrary; the loop over file sizes with fuel; sets of types.
* Proof: pointwise access specification; induction over fuel, loggers and models.
* Theorems: `C153_int`, `C153_float`, `C153_bytes`, `C153_video`.

### C154 Creating a video leaves the frames alone (partial)

* Model: `MediaConv.v`: images as nested lists of integers or rationals, the float cast outside its range arbitrary; the loop over file sizes with fuel; sets of types.
* Proof: pointwise access specification; induction over fuel, loggers and models.
* Theorems: `C154_refuted`, `C154_partial`, `C154_again`.
* Note: REFUTED: every frame that is not made of bytes with channels is replaced in the list of the caller (C154_refuted). C154_partial: exactly such frames; C154_again: a second call with the same list writes the same video.

### C155 Logging a video ends and removes its file (partial)

* Model: `MediaConv.v`: images as nested lists of integers or rationals, the float cast outside its range arbitrary; the loop over file sizes with fuel; sets of types.
* Proof: pointwise access specification; induction over fuel, loggers and models.
* Theorems: `C155_ends`, `C155_refuted`, `C155_partial`, `C155_failed`, `C155_leak_refuted`.
* Note: REFUTED: without frames no video is written, the file stays empty and the wait never ends (C155_refuted); a raising logger leaves the file behind (C155_leak_refuted). C155_partial: the file is seen twice with the same size other than 0 and no logger raises; C155_ends: exactly when it ends; C155_failed: the encoder raises.

### C156 The precision of the models is determined (partial)

* Model: `MediaConv.v`: images as nested lists of integers or rationals, the float cast outside its range arbitrary; the loop over file sizes with fuel; sets of types.
* Proof: pointwise access specification; induction over fuel, loggers and models.
* Theorems: `C156_partial`, `C156_mixed`, `C156_refuted`.
* Note: REFUTED: models without parameters give IndexError (C156_refuted). C156_partial: exactly when a type is returned; C156_mixed: exactly when RuntimeError is raised.

### C157 Training processes join the requested world (partial)

* Model: `DdpInit.v`: the cluster environment as optional values.
* Proof: case analysis.
* Theorems: `C157_partial`, `C157_refuted`, `C157_missing`, `C157_once`.
* Note: REFUTED: a given world size is overwritten by that of the environment (C157_refuted). C157_partial: no world size given, or the same; C157_missing: incomplete environments; C157_once: no second world.

### C158 update() trains each network with its own loss only (proved)

* Model: Model/UpdateTrace.v: a machine of networks (version of the parameters, losses summed in .grad, clipped, mode), losses with their graphs, and records of steps, backward passes and target updates; the operations of every update() in the order of the code; MADDPG jobs run under an arbitrary schedule. Not modelled: the numbers, sampling, visualisation, A3C (C113-C116)..
* Proof: adds composes the effects of code pieces from every state; loops by induction on the update times; exec_ok gives modes and versions by induction on the operations; C160 by a non-interference invariant (rel) relating the shared state, seen from one agent, to that agent's job run alone, and two-job schedules with symbolic positions for the refutation..
* Theorems: `C158_steps`, `C158_only`.
* Note: Autograd is modelled by versions of whole networks and graphs given by the networks they use; GAIL's discriminator step is C105, MADDPG is C160.

### C159 update() leaves evaluation mode and an empty on-policy buffer (partial)

* Model: Model/UpdateTrace.v: a machine of networks (version of the parameters, losses summed in .grad, clipped, mode), losses with their graphs, and records of steps, backward passes and target updates; the operations of every update() in the order of the code; MADDPG jobs run under an arbitrary schedule. Not modelled: the numbers, sampling, visualisation, A3C (C113-C116)..
* Proof: adds composes the effects of code pieces from every state; loops by induction on the update times; exec_ok gives modes and versions by induction on the operations; C160 by a non-interference invariant (rel) relating the shared state, seen from one agent, to that agent's job run alone, and two-job schedules with symbolic positions for the refutation..
* Theorems: `C159_partial`, `C159_refuted`.
* Note: REFUTED: TRPO.update returns early on a zero policy gradient (trpo.py 243-247): the networks stay in training mode, the buffer keeps the old samples and the critic is not trained. C159_partial proves it in every other case.

### C160 MADDPG jobs do not disturb each other (partial)

* Model: Model/UpdateTrace.v: a machine of networks (version of the parameters, losses summed in .grad, clipped, mode), losses with their graphs, and records of steps, backward passes and target updates; the operations of every update() in the order of the code; MADDPG jobs run under an arbitrary schedule. Not modelled: the numbers, sampling, visualisation, A3C (C113-C116)..
* Proof: adds composes the effects of code pieces from every state; loops by induction on the update times; exec_ok gives modes and versions by induction on the operations; C160 by a non-interference invariant (rel) relating the shared state, seen from one agent, to that agent's job run alone, and two-job schedules with symbolic positions for the refutation..
* Theorems: `C160_serial_partial`, `C160_partial`, `C160_refuted`.
* Note: REFUTED for ensemble_size >= 2: all sub-policies of an agent train its one critic at the same time, so a step may use the gradients of two losses, none, or the stale graph raises. C160_partial: ensemble_size 1, every schedule; C160_serial_partial: every ensemble size if the jobs run one after another. One operation (zero_grad, backward, ...) is atomic in the model.

### C161 set_backward_function is used for every loss (partial)

* Model: Model/UpdateTrace.v: a machine of networks (version of the parameters, losses summed in .grad, clipped, mode), losses with their graphs, and records of steps, backward passes and target updates; the operations of every update() in the order of the code; MADDPG jobs run under an arbitrary schedule. Not modelled: the numbers, sampling, visualisation, A3C (C113-C116)..
* Proof: adds composes the effects of code pieces from every state; loops by induction on the update times; exec_ok gives modes and versions by induction on the operations; C160 by a non-interference invariant (rel) relating the shared state, seen from one agent, to that agent's job run alone, and two-job schedules with symbolic positions for the refutation..
* Theorems: `C161_exact`, `C161_partial`, `C161_refuted`, `C161_gail_refuted`.
* Note: REFUTED for DQN vanilla (dqn.py 383), TD3 and SAC, which call loss.backward() directly, and for the framework inside GAIL, which keeps its own default (C161_gail_refuted). C161_partial proves it for all others.

### C162 MADDPG value targets use the target policies (partial)

* Model: `MaddpgLoss.v`: actors and critics as functions, act with the sub-policy choice as oracle, next actions, regression target, and policy value for one sample; concatenation functions keep the lists, transforms are the defaults..
* Proof: the lists are computed in closed form; the refutations build an indicator critic for arbitrary actors, visible sets and batches..
* Theorems: `C162_exact`, `C162_partial`, `C162_refuted`.
* Note: REFUTED: update asks for act(..., target=True), but the parameter is called use_target and the keyword goes to **__, so the other agents' next actions come from their online actors (C162_exact is the formula of the code). C162_partial: true if online and target policies agree on the next states of the other visible agents.

### C163 MADDPG improves the policy at the current state (partial)

* Model: `MaddpgLoss.v`: actors and critics as functions, act with the sub-policy choice as oracle, next actions, regression target, and policy value for one sample; concatenation functions keep the lists, transforms are the defaults..
* Proof: the lists are computed in closed form; the refutations build an indicator critic for arbitrary actors, visible sets and batches..
* Theorems: `C163_exact`, `C163_partial`, `C163_refuted`, `C163_invisible_refuted`.
* Note: REFUTED: the own action is computed from next_state (maddpg.py 868-870) while the critic gets the current states; and an agent that is not in its critic's visible_actors raises ValueError after its critic was trained (C163_invisible_refuted). C163_partial: true if the policy acts the same in both states.

### C164 Malformed arguments are refused with a definite exception (proved)

* Model: the models of the other properties (`Target.v`, `OnPolicy.v`, `Servers.v`, `Losses.v`, `Returns.v`, `GymData.v`, `ParallelEnv.v`, `DdpInit.v`, `LoadSave.v`, `Launch.v`, `ResNet.v`, `Ars.v`); exceptions are values, so the theorems can say which one is raised..
* Proof: induction over the argument lists for soft_update, the optimizers, index_add, the environments and the filters; case analysis elsewhere..
* Theorems: `C164_soft_update`, `C164_optimizers`, `C164_reduce`, `C164_projection`, `C164_one_atom`, `C164_impala`, `C164_actions`, `C164_environments`, `C164_no_rank`, `C164_load_nothing`, `C164_empty`, `C164_resnet`, `C164_filters`.

### C165 IMPALA draws whole episodes (partial)

* Model: `EpisodeSample.v` (IMPALABuffer.sample_method_episode on the buffer of `Buffer.v`; the draw of random.choices is an argument); targets from `Returns.v`..
* Proof: the ring invariant of C01 (dictionaries describe a chain of episodes, the storage holds their steps) plus distinct episode numbers; induction over the chain and over the draw; composed with C33..
* Theorems: `C165_whole_episodes`, `C165_boundaries_survive`, `C165_after_clear_refuted`, `C165_empty`.
* Note: REFUTED: after Buffer.clear() the episode table still lists the old episodes and every non-empty draw raises IndexError (C165_after_clear_refuted). Without clear() the claim is proved in full (C165_whole_episodes, C165_boundaries_survive).

### C166 Scripted MADDPG actors get the arguments of their signature (partial)

* Model: `JitCall.v` (maddpg.py 704-748, signatures of `SafeCall.v`; device choice and asynchronous execution dropped)..
* Proof: a simulation with the dictionary of safe_call (slot of a parameter = entry of the dictionary), then the specification of C47..
* Theorems: `C166_partial`, `C166_default_refuted`, `C166_kwonly_refuted`.
* Note: REFUTED: a parameter with a default that is not in the dictionaries is passed None instead of its default (C166_default_refuted), and every signature with a keyword-only parameter fails or loses it (C166_kwonly_refuted). Everything else is C166_partial.

### C167 Batches in shared memory keep their values (partial)

* Model: `SharedMem.v` (nested batch objects as an inductive type, value semantics; device types as numbers)..
* Proof: paths into nested objects, induction over paths; induction over models and parameters for the device set..
* Theorems: `C167_tensors_partial`, `C167_values_lost_refuted`.
* Note: REFUTED: every value that is neither a tensor nor a container (numbers, strings: all custom attributes, and rewards of unconcatenated samples) becomes None (C167_values_lost_refuted). Tensors and container structure are preserved (C167_tensors_partial).

### C168 MADDPG accepts exactly models on one kind of device (proved)

* Model: `SharedMem.v` (nested batch objects as an inductive type, value semantics; device types as numbers)..
* Proof: paths into nested objects, induction over paths; induction over models and parameters for the device set..
* Theorems: `C168_device`.

### C169 ARS actor names select the right actor and reward list (proved)

* Model: `ArsActors.v` (names as lists of ASCII characters with startswith, split and int; actor and reward dictionaries; perturbation of parameter lists over exact rationals; sampler results are arguments)..
* Proof: a grammar of names independent of the parser, equivalence of parser and grammar; induction over the calls, the parameters and the rollouts..
* Theorems: `C169_act`, `C169_store_reward`.

### C170 ARS perturbs actors symmetrically with the recorded noise (proved)

* Model: `ArsActors.v` (names as lists of ASCII characters with startswith, split and int; actor and reward dictionaries; perturbation of parameter lists over exact rationals; sampler results are arguments)..
* Proof: a grammar of names independent of the parser, equivalence of parser and grammar; induction over the calls, the parameters and the rollouts..
* Theorems: `C170_perturbed`, `C170_small_noise`.

### C171 A terminated pool is quiet and leaves nobody waiting (partial)

* Model: `Pool.v` (state, handlers, workers and result objects of the pool; LKill = the part of _terminate_pool after the handlers have stopped)..
* Proof: frame lemma over every kind of step in state TERMINATE, induction over the schedule..
* Theorems: `C171_workers_end`, `C171_stays`, `C171_results_frozen`, `C171_pending_refuted`.
* Note: REFUTED: a job without result when the pool is terminated never gets one, so get() without timeout waits for ever (C171_pending_refuted). All other parts are proved.

### C172 A SimpleQueue delivers every object once, intact and in order (proved)

* Model: `SimpleQueue.v` (locks, a pipe of symbols written and read one at a time, messages preceded by their length, time-outs and deaths as steps of the environment; pickling left out, an object is its serialised symbols)..
* Proof: invariant: consumed and current pipe contents are the frames of the sent messages, with the part in flight owned by the lock holder; induction over schedules..
* Theorems: `C172_in_order`, `C172_nothing_lost`, `C172_delivered`, `C172_discipline_needed`.
* Note: C172_discipline_needed shows that two concurrent callers of quick_put do mix up their messages.

### C173 A dead process does not block a SimpleQueue (partial)

* Model: `SimpleQueue.v` (locks, a pipe of symbols written and read one at a time, messages preceded by their length, time-outs and deaths as steps of the environment; pickling left out, an object is its serialised symbols)..
* Proof: invariant: consumed and current pipe contents are the frames of the sent messages, with the part in flight owned by the lock holder; induction over schedules..
* Theorems: `C173_refuted`, `C173_put_refuted`, `C173_partial`.
* Note: REFUTED: a process dying inside get keeps the read lock: nothing is ever received again by get and waiting callers wait for ever, with or without time limit (C173_refuted); likewise for put (C173_put_refuted). If processes die only outside the locked regions, nothing is lost and everything can be received (C173_partial).

### C174 get(timeout) of a SimpleQueue ends (partial)

* Model: `SimpleQueue.v` (locks, a pipe of symbols written and read one at a time, messages preceded by their length, time-outs and deaths as steps of the environment; pickling left out, an object is its serialised symbols)..
* Proof: invariant: consumed and current pipe contents are the frames of the sent messages, with the part in flight owned by the lock holder; induction over schedules..
* Theorems: `C174_refuted`, `C174_partial`.
* Note: REFUTED: the time limit does not cover waiting for the read lock: as long as another process is inside get, the call waits on (C174_refuted). With a free lock, and for quick_get, the claim holds (C174_partial).

### C175 TRPO's Fisher-vector product is the curvature of the KL divergence (partial)

* Model: `TrpoFvp.v` (trpo.py 400-438, 464-498, 258-260; Gaussian get_kl and get_fim; the actor is its Jacobian, automatic differentiation of a linear function is evaluation at the unit vectors, square root and exponential are arguments)..
* Proof: entry-by-entry sums over the Jacobian, exchange of sums; the KL divergence of the moved Gaussian by field arithmetic and induction over the batch..
* Theorems: `C175_product`, `C175_symmetric`, `C175_definite`, `C175_curvature_partial`, `C175_log_std_refuted`.
* Note: REFUTED: in the directions of action_log_std, which is a parameter of the actor, the product is damping * v only although the KL divergence is positive (C175_log_std_refuted). C175_product, C175_symmetric and C175_definite hold in general; for the parameters of the mean the product is the exact curvature (C175_curvature_partial).

### C176 TRPO's full step exhausts the trust region (proved)

* Model: `TrpoFvp.v` (trpo.py 400-438, 464-498, 258-260; Gaussian get_kl and get_fim; the actor is its Jacobian, automatic differentiation of a linear function is evaluation at the unit vectors, square root and exponential are arguments)..
* Proof: entry-by-entry sums over the Jacobian, exchange of sums; the KL divergence of the moved Gaussian by field arithmetic and induction over the batch..
* Theorems: `C176_step`.

### C177 Settings from the command line (partial)

* Model: `ConfLoad.v` on top of `Config.v` (str.split, evaluation of expressions as argument, files as documents, json's sort_keys)..
* Proof: induction over the settings and over paths into nested values; stability of the sort; C64 for the merge..
* Theorems: `C177_partial`, `C177_none`, `C177_refuted`, `C177_equals_refuted`.
* Note: REFUTED: an expression which itself contains an equals sign (a string, a keyword argument, a comparison) makes the whole call fail with ValueError (C177_equals_refuted, C177_refuted). C177_partial proves it for all other settings.

### C178 A saved configuration is restored by loading it (partial)

* Model: `ConfLoad.v` on top of `Config.v` (str.split, evaluation of expressions as argument, files as documents, json's sort_keys)..
* Proof: induction over the settings and over paths into nested values; stability of the sort; C64 for the merge..
* Theorems: `C178_partial`, `C178_keys_refuted`, `C178_destroyed_refuted`, `C178_dict_refuted`, `C178_missing`.
* Note: REFUTED: keys named like attributes (get, attr, const_attrs) or with two leading underscores can be saved but not loaded (C178_keys_refuted); a save that fails because of a value or because a plain dictionary is passed destroys the old file (C178_destroyed_refuted, C178_dict_refuted). C178_partial proves the rest.

### C179 The default hooks of check_model (partial)

* Model: `CheckHooks.v` (checker.py 34-204, 301-307; tensors as lists of elements with nan, the writer as the list of what was written)..
* Proof: induction over values, hook calls and passes with the exact list of records..
* Theorems: `C179_partial`, `C179_nan`, `C179_integer_refuted`, `C179_empty_refuted`, `C179_interval_zero`.
* Note: REFUTED: a tensor of integers or without elements ends the pass with RuntimeError (C179_integer_refuted, C179_empty_refuted). C179_partial: exact records for non-empty floating point tensors; C179_nan; an interval of 0 raises (C179_interval_zero).

### C180 Interval of the parameter checks (partial)

* Model: `CheckHooks.v` (checker.py 34-204, 301-307; tensors as lists of elements with nan, the writer as the list of what was written)..
* Proof: induction over values, hook calls and passes with the exact list of records..
* Theorems: `C180_counts_calls`, `C180_refuted`, `C180_partial`.
* Note: REFUTED: only calls of the model are counted (C180_counts_calls); evaluation without backward passes is checked, accumulated backward passes are not (C180_refuted). C180_partial: one backward pass per call.

### C181 Estimated size of a model (partial)

* Model: `SizeEstimate.v` (assigner.py 9-81; shapes and element types)..
* Proof: induction over the tensors; products and sums of natural numbers..
* Theorems: `C181_partial`, `C181_types_refuted`, `C181_complex32_refuted`.
* Note: REFUTED: ValueError exactly if there is a tensor of type bfloat16, complex64 or complex128 (C181_types_refuted); complex32 counts twice (C181_complex32_refuted). C181_partial: all other types.

### C182 Relative ranks in a collective group (proved)

* Model: `Collective.v` (_world.py 321-345, 431-516; torch's process group as a list of waiting messages)..
* Proof: sorting and counting; an invariant relating what was sent, received and is waiting for every pair of members and tag..
* Theorems: `C182_ranks`, `C182_numbering`.

### C183 CollectiveGroup.irecv reports the source (proved)

* Model: `Collective.v` (_world.py 321-345, 431-516; torch's process group as a list of waiting messages)..
* Proof: sorting and counting; an invariant relating what was sent, received and is waiting for every pair of members and tag..
* Theorems: `C183_in_order`, `C183_source`, `C183_outside`.
* Note: torch's process groups deliver in order per source, receiver and tag

### C184 Assigning optimizers (partial)

* Model: `FrameOptim.v` (the properties, setters, update and update_lr_scheduler of all frameworks but MADDPG, as dictionaries from networks to optimizers and lists of steps)..
* Proof: case analysis over the frameworks, induction over the assignments and the iterations..
* Theorems: `C184_partial`, `C184_length`, `C184_a3c`, `C184_refuted`.
* Note: REFUTED: GAIL replaces the discriminator's optimizer only, the wrapped PPO or TRPO goes on stepping the old ones while the property returns the new ones (C184_refuted). C184_partial: all other frameworks; C184_length: lists of another length; C184_a3c: A3C has none.

### C185 Schedulers reported and stepped (partial)

* Model: `FrameOptim.v` (the properties, setters, update and update_lr_scheduler of all frameworks but MADDPG, as dictionaries from networks to optimizers and lists of steps)..
* Proof: case analysis over the frameworks, induction over the assignments and the iterations..
* Theorems: `C185_partial`, `C185_none`, `C185_gail`, `C185_refuted`.
* Note: REFUTED: SAC reports four schedulers and steps the first two, those of the second critic and of alpha are never stepped (C185_refuted). C185_partial: all other frameworks; C185_none, C185_gail.

### C186 all_clear while the members work (proved)

* Model: `DistConc.v` (buffer_d.py 60-126, 174-178 and the same in prioritized_buffer_d.py: a transition system of all members' constructors, stores, clears, calls and answers)..
* Proof: induction over schedules: every answer belongs to exactly one step of the owner; transitions come from stores only; an invariant for calls on finished buffers..
* Theorems: `C186_all_clear`, `C186_nothing_else`.

### C187 all_size while the members work (partial)

* Model: `DistConc.v` (buffer_d.py 60-126, 174-178 and the same in prioritized_buffer_d.py: a transition system of all members' constructors, stores, clears, calls and answers)..
* Proof: induction over schedules: every answer belongs to exactly one step of the owner; transitions come from stores only; an invariant for calls on finished buffers..
* Theorems: `C187_partial`, `C187_quiet`, `C187_refuted`.
* Note: REFUTED: the members answer one after another, and the sum may be larger than the number at every moment of the call (C187_refuted). C187_partial: it is the sum of the sizes the buffers had when each answered, all during the call; C187_quiet: it is the number of transitions if none is stored or removed meanwhile.

### C188 Calls on a constructed distributed buffer (partial)

* Model: `DistConc.v` (buffer_d.py 60-126, 174-178 and the same in prioritized_buffer_d.py: a transition system of all members' constructors, stores, clears, calls and answers)..
* Proof: induction over schedules: every answer belongs to exactly one step of the owner; transitions come from stores only; an invariant for calls on finished buffers..
* Theorems: `C188_partial`, `C188_refuted`.
* Note: REFUTED: whenever a member has not finished its constructor, all_clear may clear the members before it and then raise KeyError (service not registered) or the exception for the missing wr_lock, which is created after the services are registered (C188_refuted). C188_partial: if all members were constructed when the call was made it never raises, and returns once everybody was asked and answered.

### C189 Weights of transitions stored without priorities (partial)

* Model: `PrioritizedBuffer.v`, `DistBuffer.v`..
* Proof: the tree invariant of the buffers, plus: no leaf exceeds get_leaf_max(), by induction over histories; induction over the positions for the distributed store..
* Theorems: `C189_partial`, `C189_distributed_partial`, `C189_refuted`, `C189_distributed_refuted`.
* Note: REFUTED: the largest weight, which is normalized already, is normalized again, so a new transition gets less weight than an older one whenever norm (norm p) < norm p (C189_refuted); the distributed buffer asks for the largest weight again for every transition, so the transitions of one episode get different weights (C189_distributed_refuted). C189_partial: one weight for all, the rest unchanged, and largest if norm does not make the maximum smaller; C189_distributed_partial: the exact weights.

### C190 Size of a distributed prioritized sample taken while the members work (partial)

* Model: `PrioConc.v`: members with distributed prioritized buffers, and calls of sample_batch whose weight questions and sample requests are separate steps answered in any order between stores, clears and updates..
* Proof: history lemma: each recorded answer is the service applied to the state of the member after a prefix of the schedule; induction over schedules (reachable members, versions), then the arithmetic of the shares..
* Theorems: `C190_partial`, `C190_refuted`.
* Note: REFUTED: members that clear their buffers between the two rounds return nothing, so a sample can be empty whatever the weights were (C190_refuted, for every history). C190_partial: fewer than n + p always; at least n if nobody clears during the call.

### C191 Distributed samples are consistent under concurrency (proved)

* Model: `PrioConc.v`: members with distributed prioritized buffers, and calls of sample_batch whose weight questions and sample requests are separate steps answered in any order between stores, clears and updates..
* Proof: history lemma: each recorded answer is the service applied to the state of the member after a prefix of the schedule; induction over schedules (reachable members, versions), then the arithmetic of the shares..
* Theorems: `C191_consistent`.

### C192 Both Fisher-vector products of TRPO are equal (partial)

* Model: `TrpoDirect.v`: the divergences evaluated on numbers with two independent nilpotent parts (value, two first derivatives and the mixed second one), which is what two passes of automatic differentiation return; `TrpoFvp.v` for the other product. exp and log are arguments..
* Proof: the mixed part of each divergence in closed form (field), sums over samples and actions exchanged; positivity of (1 / p - p) (Jv)^2 for the discrete refutation..
* Theorems: `C192_partial`, `C192_refuted`, `C192_discrete`, `C192_discrete_refuted`, `C192_unused`.
* Note: REFUTED: for continuous actors the products differ by 2 v on action_log_std, which 'fim' ignores (C192_refuted); for discrete actors get_fim returns p where the divergence has 1 / p, contrary to its comment (C192_discrete_refuted); with an unused parameter 'direct' raises RuntimeError and 'fim' does not (C192_unused). C192_partial: continuous actors, equal on all other parameters, whatever the second derivatives of the network; C192_discrete: the direct product is the one with metric 1 / p.

### C193 terminate() of a thread pool (partial)

* Model: `ThreadPool.v`: queue of tasks and stop signals, workers with task counts, both handler threads with their program counters, the cache; ghost lists of begun and delivered tasks..
* Proof: invariant over all schedules (every task is waiting, running, in the result queue or delivered; cache = undelivered; begun ++ waiting = all in order; living workers <= stop signals once the handler has ended), a measure that no step of the pool's threads increases and one or two such steps decrease; for the refutation the shape tasks ++ stop signals of the queue..
* Theorems: `C193_partial`, `C193_lost`, `C193_refuted`.
* Note: REFUTED: threads cannot be stopped and the stop signals stand behind the waiting tasks, so terminate() returns only after all waiting tasks have been executed (C193_refuted: for every execution without task limit and failing initializers); the results of all but at most one of them are never set (C193_lost). C193_partial: terminate() returns if all tasks do, and nothing begins after it has returned.

### C194 A closed thread pool delivers everything and ends (proved)

* Model: `ThreadPool.v`: queue of tasks and stop signals, workers with task counts, both handler threads with their program counters, the cache; ghost lists of begun and delivered tasks..
* Proof: invariant over all schedules (every task is waiting, running, in the result queue or delivered; cache = undelivered; begun ++ waiting = all in order; living workers <= stop signals once the handler has ended), a measure that no step of the pool's threads increases and one or two such steps decrease; for the refutation the shape tasks ++ stop signals of the queue..
* Theorems: `C194_delivered`, `C194_ends`.

### C195 ARS processes keep the same actor (proved)

* Model: `ArsSync.v`: per process a list of instructions (pair, unpair, read, barrier entry and return, push, pull) with position, filter, result, paired flags; the model server of `Servers.v`; any process makes the next step..
* Proof: what a process owns is a function of its round and position (sequential specification); barrier counts confine every other process to the same segment, so each read finds the specified value; server invariant of C22; progress by a bounded total weight..
* Theorems: `C195_agree`, `C195_together`, `C195_progress`.
* Note: Barriers are taken as C29 states them: they return once all members have entered; the missed wake-up of C29_refuted is not part of this model. The computations between the exchanges are arbitrary total functions (C41, C57, C38).

### C196 Gradient server publishes every optimization step (proved)

* Model: Model/GradServer.v: start, stop, manage_model, the model update and publication on top of the reducer threads of Model/Servers.v; pull. The condition of the waiting loop and the test of stop_event are one step..
* Proof: C196: invariant relating the managed model, its version and the ordered server's log (os_push_one of C22); C197: a measure over both queues and the program counter decreases with each step; the ended thread is an invariant of every continuation..
* Theorems: `C196_published`, `C196_monotone`, `C196_remanaged`.
* Note: The optimizer is an arbitrary partial function of parameters and reduced gradients; the reduction threads are those of C23.

### C197 Stopping and restarting the gradient server (partial)

* Model: Model/GradServer.v: start, stop, manage_model, the model update and publication on top of the reducer threads of Model/Servers.v; pull. The condition of the waiting loop and the test of stop_event are one step..
* Proof: C196: invariant relating the managed model, its version and the ordered server's log (os_push_one of C22); C197: a measure over both queues and the program counter decreases with each step; the ended thread is an invariant of every continuation..
* Theorems: `C197_partial`, `C197_refuted`.
* Note: REFUTED: `started` is never reset, so start() after stop() does nothing and no later gradient of the process is ever reduced (C197_refuted, all continuations). Proved: a stopped thread ends after finitely many of its own steps from every reachable state, and stop() then returns (C197_partial).

### C198 A stored transition is independent of its caller (proved)

* Model: Model/StoreCopy.v: a heap of cells, tensors, dictionaries and transitions; deepcopy with memo, to(device), _detach, construction, operations of the caller; Buffer.store_episode with a copy that may fail. Other mutable objects as custom attributes are not modelled, and the copy of a leaf that requires grad stays a leaf when moved..
* Proof: C198: the memo relates old addresses to fresh ones (all addresses of the copy are at or above the old sizes), moving keeps the relation, and the caller's operations cannot reach the fresh range (invariant apart); C199: the ring invariant of C01 with the prefix appended to the writes..
* Theorems: `C198_isolated`, `C198_refused`, `C198_constructed`.
* Note: Tensors are objects referring to memory cells; deepcopy has its memo. Custom attributes are tensors, dictionaries of tensors or plain values.

### C199 A store refused in the middle leaves the buffer as it was (partial)

* Model: Model/StoreCopy.v: a heap of cells, tensors, dictionaries and transitions; deepcopy with memo, to(device), _detach, construction, operations of the caller; Buffer.store_episode with a copy that may fail. Other mutable objects as custom attributes are not modelled, and the copy of a leaf that requires grad stays a leaf when moved..
* Proof: C198: the memo relates old addresses to fresh ones (all addresses of the copy are at or above the old sizes), moving keeps the relation, and the caller's operations cannot reach the fresh range (invariant apart); C199: the ring invariant of C01 with the prefix appended to the writes..
* Theorems: `C199_refuted`, `C199_partial`.
* Note: REFUTED: the transitions before the failing one stay in the storage, written over the oldest ones, while the tables of handles are unchanged; once they do not fit beside the retained episodes a handle of a retained episode gives a transition of the refused one (C199_refuted, all histories). Proved: if all copies succeed this is the store of C01; if the first fails only an episode number is lost (C199_partial).

### C200 Writing into a sample does not change the buffer (partial)

* Model: Model/SampleAlias.v: post_process_batch and make_tensor_from_batch on the heap of Model/StoreCopy.v. Contents are opaque, torch.cat and torch.tensor are partial functions of the contents, the hooks are the identity, custom attributes selected by * are taken in order..
* Proof: Every step extends the heap (App of C198), so stored objects are unchanged; results of concatenation lie at addresses at or above the old sizes; moved tensors are the stored ones exactly when the device is the same..
* Theorems: `C200_partial`, `C200_refuted`, `C200_custom_refuted`, `C200_selected`.
* Note: REFUTED: with concatenate=False the returned lists contain the stored tensors themselves wherever they are on the requested device, so that a write changes the stored transition (C200_refuted), and custom attributes which are not concatenated are always the stored objects (C200_custom_refuted). Proved: sampling itself changes nothing; concatenated attributes are new tensors with memory of their own, holding the values in the order of the batch, and no write into them changes anything stored (C200_partial, C200_selected).

### C201 A sampled batch is on the requested device (partial)

* Model: Model/SampleAlias.v: post_process_batch and make_tensor_from_batch on the heap of Model/StoreCopy.v. Contents are opaque, torch.cat and torch.tensor are partial functions of the contents, the hooks are the identity, custom attributes selected by * are taken in order..
* Proof: Every step extends the heap (App of C198), so stored objects are unchanged; results of concatenation lie at addresses at or above the old sizes; moved tensors are the stored ones exactly when the device is the same..
* Theorems: `C201_partial`, `C201_refuted`.
* Note: REFUTED: with concatenate=False sub attributes (a tensor reward or terminal) stay on the storage's device (C201_refuted). Proved: everything concatenated, and the tensors of major attributes in either case, are on the requested device (C201_partial).

### C202 Keys paired through any object of a group can be used (partial)

* Model: Model/World.v: an object received by pickling is WNew without WPublish..
* Proof: Calls are run to their end step by step in an arbitrary state; the outcome of each is computed from the tables and the published object alone..
* Theorems: `C202_refuted`, `C202_partial`.
* Note: REFUTED: __reduce__ constructs a second object which is not the one in WORLD.groups, and the remote side looks only there. Pairing through it succeeds, but every use raises KeyError, even through that very object; the failed use withdraws the entry of a paired value, after which unpair raises RuntimeError, while the entry of a service stays and blocks the key for everybody (C202_refuted). Proved: what is paired or registered through the published object can be used through every object of the group (C202_partial).

### C203 An update without samples leaves the networks in evaluation mode (partial)

* Model: Model/UpdateEmpty.v: the operations of Model/UpdateTrace.v with sampling and the quotients of the returned means put in their places; an exception leaves the state reached so far..
* Proof: Without samples and quotients the lists are those of C158 (lemma full_plain). Each consists of a part before clear() in which every sampling succeeds while the buffer is not empty, a clean-up, and the quotients..
* Theorems: `C203_partial`, `C203_refuted`, `C203_gail_refuted`.
* Note: REFUTED: the batch of an empty buffer is None, whose unpacking raises TypeError after train() has been called, so every framework except the three modes of DQN is left with all its networks in training mode (C203_refuted); for GAIL an empty buffer of the expert suffices (C203_gail_refuted). Proved: nothing is trained, no target is updated, and DQN, which samples first, is left exactly as it was (C203_partial).

### C204 update() returns for all numbers of passes (partial)

* Model: Model/UpdateEmpty.v: the operations of Model/UpdateTrace.v with sampling and the quotients of the returned means put in their places; an exception leaves the state reached so far..
* Proof: Without samples and quotients the lists are those of C158 (lemma full_plain). Each consists of a part before clear() in which every sampling succeeds while the buffer is not empty, a clean-up, and the quotients..
* Theorems: `C204_partial`, `C204_refuted`, `C204_gail_refuted`.
* Note: REFUTED: with 0 passes of either network everything is done, the buffer is cleared, and ZeroDivisionError is raised instead of returning (C204_refuted, every such framework and state); GAIL without passes of the discriminator never returns (C204_gail_refuted). Proved: with at least one pass of each it returns, having done exactly the operations of C158 (C204_partial).

### C205 A closed P2PPool completes the submitted jobs (partial)

* Model: Model/Pool.v: p2p_close. The per-worker queues of P2PPool are modelled in C54 and C75; here the tasks wait in one queue, which is immaterial once the pool is terminated..
* Proof: From the theorems of C171..
* Theorems: `C205_refuted`, `C205_partial`.
* Note: REFUTED: close() of P2PPool is terminate(), so a job without result then never gets one under any schedule, and get() without timeout waits for ever (C205_refuted). Proved: results that are there stay, all workers and handlers end, and nothing more is accepted (C205_partial).

### C206 A restarted trial uses the directory named (partial)

* Model: Model/TrialName.v: names as lists of characters, strptime and strftime for the default format, calendar included..
* Proof: Fields are recovered by splitting at the underscores; a field of two digits is what strftime writes..
* Theorems: `C206_partial`, `C206_restart_spec_partial`, `C206_refuted`, `C206_calendar`.
* Note: REFUTED: strptime accepts fields without leading zeros, strftime writes them, so every accepted name shorter than 19 characters is mapped to another directory (C206_refuted). Proved: the exact condition under which the directory is the one named (C206_restart_spec_partial), and that the name of every directory that was created works (C206_partial).

### C207 Every trial has its own directory (partial)

* Model: Model/TrialName.v: names as lists of characters, strptime and strftime for the default format, calendar included..
* Proof: Fields are recovered by splitting at the underscores; a field of two digits is what strftime writes..
* Theorems: `C207_partial`, `C207_refuted`.
* Note: REFUTED: the directory name has the resolution of a second (C207_refuted). Proved: trials share their directory exactly when they were created in the same second (C207_partial).

### C208 Loading a state dictionary (proved)

* Model: Model/StateDict.v: state dictionaries as lists of named tensors with shape, device and contents; load_state_dict overwrites first and complains afterwards..
* Proof: By the lookup of every name; induction over the names for the loop..
* Theorems: `C208_loads`.
* Note: C208_loads. The tensors moved by .to() in the loop are dropped; the devices are right because load_state_dict copies into the parameters.

### C209 A state dictionary that does not fit changes nothing (partial)

* Model: Model/StateDict.v: state dictionaries as lists of named tensors with shape, device and contents; load_state_dict overwrites first and complains afterwards..
* Proof: By the lookup of every name; induction over the names for the loop..
* Theorems: `C209_missing_partial`, `C209_refuted`.
* Note: REFUTED: with an unexpected name or a wrong shape RuntimeError is raised after every parameter of the right shape has been overwritten (C209_refuted). Proved: with a missing name KeyError is raised first and nothing is changed (C209_missing_partial).

### C210 The check of probability tensors (proved)

* Model: Model/ProbCheck.v: tensors as matrices of numbers that are rationals, infinities or nan, with the comparisons of floating point numbers..
* Proof: A sum of numbers that are not negative is finite or plus infinity, which the test of the sum refuses; a row with positive sum has a positive largest element..
* Theorems: `C210_exactly_distributions`.
* Note: C210_exactly_distributions. Sums are exact in the model.

### C211 Greedy discrete actions (proved)

* Model: Model/ProbCheck.v: tensors as matrices of numbers that are rationals, infinities or nan, with the comparisons of floating point numbers..
* Proof: A sum of numbers that are not negative is finite or plus infinity, which the test of the sum refuses; a row with positive sum has a positive largest element..
* Theorems: `C211_actions`.
* Note: C211_actions; argmax is any function that returns a position of a largest element.

### C212 Tensors arrive with their values (proved)

* Model: Model/Pickle.v: tensors as views of storages, pickling with its memo; copying or referring to shared memory..
* Proof: Invariant of the memo: injective, and every entry refers to a tensor with the same view of the same data; copies own their storage..
* Theorems: `C212_values_and_identity`, `C212_elements`.
* Note: C212_values_and_identity.

### C213 Tensors that share memory still share it after being sent (partial)

* Model: Model/Pickle.v: tensors as views of storages, pickling with its memo; copying or referring to shared memory..
* Proof: Invariant of the memo: injective, and every entry refers to a tensor with the same view of the same data; copies own their storage..
* Theorems: `C213_by_reference_partial`, `C213_writes_partial`, `C213_refuted`.
* Note: REFUTED: with copy_tensor=True (the default of dumps) _reduce_full saves every tensor with a storage of its own, so no two different tensors share memory afterwards and no write to one is seen in another (C213_refuted). Proved: with copy_tensor=False sharing is kept exactly (C213_by_reference_partial).

### C214 Waiting for a video made by a process (partial)

* Model: Model/MediaProc.v: caller, child process and file as a transition system; join and the termination of daemonic children at exit..
* Proof: Invariant relating the file to the frames that are left; explicit executions for the refutation..
* Theorems: `C214_partial`, `C214_returns`, `C214_refuted`.
* Note: REFUTED: p.join() returns as well when encoding has failed; the file then ends before the frame and nothing tells the caller, and without frames there is no file (C214_refuted). Proved: complete for all frames that can be encoded (C214_partial); wait() can always return (C214_returns).

### C215 A video is complete after the end of the program (partial)

* Model: Model/MediaProc.v: caller, child process and file as a transition system; join and the termination of daemonic children at exit..
* Proof: Invariant relating the file to the frames that are left; explicit executions for the refutation..
* Theorems: `C215_partial`, `C215_refuted`.
* Note: REFUTED: with daemon=True, the default, the process is terminated with the program; for every number of frames there is an execution that leaves exactly these frames in a file which is never closed (C215_refuted). Proved: with daemon=False the file is complete for all frames that can be encoded (C215_partial).

### C216 Processes of a distributed training meet in their collective calls (partial)

* Model: Model/StepSync.v on top of Model/Launch.v: the sequence of collective calls of every process; a call returns when all processes make the same one..
* Proof: All processes end exactly when their sequences are equal; sequences determine the numbers of monitored values..
* Theorems: `C216_exactly_partial`, `C216_refuted`, `C216_raised_refuted`.
* Note: REFUTED: values of the monitored key are reduced over all processes when they are logged; if the first samples of two processes report it a different number of times (for instance because the info of an environment has the same key) nobody comes to the end (C216_refuted); neither if _log raises in one of them (C216_raised_refuted). Proved: the training ends exactly when numbers of steps and of monitored values agree (C216_exactly_partial).

### C217 Processes of a distributed test meet in their collective calls (partial)

* Model: Model/StepSync.v: test_colls, the reductions made by test_step..
* Proof: As C216; the sequences are determined by the total number of monitored values..
* Theorems: `C217_exactly_partial`, `C217_refuted`.
* Note: REFUTED: test_step logs every sample and has no barrier; processes that report the monitored value once per sample but have different numbers of samples block each other (C217_refuted). Proved: the test ends exactly when the total numbers of monitored values agree (C217_exactly_partial).

## What is not modelled

* Neural networks, optimizers, autograd and all tensor kernels: they appear as arbitrary functions.
* Logging, visualisation, media, tensor board, hyper-parameter search and the Lightning glue of `machin/auto` apart from
  the configuration functions.
* `machin/parallel/pickle.py` and the socket / gloo layers below RPC.
* Network failure and process death outside `parallel/pool.py`.
* `DQN` mode "vanilla" in C36 (online and target network are one object there).

## Mutation experiments

`seeded/LOG.jsonl` records every experiment: the definition edited in a scratch copy, the edit, the English claim it breaks,
the theorems that no longer compile (a theorem counts as failed when it or a lemma it uses no longer has a proof) and the theorems
tightened as a consequence. Edits described as "bug fixed" repair a defect of the source and are expected to break the
corresponding `_refuted` theorem. Edits whose claim says "none" are controls expected to survive.
