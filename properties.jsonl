{"id": "C01", "title": "Replay buffer keeps whole episodes and returns exactly what was stored", "statement": "After any history of store_episode calls (each non-empty and not longer than the buffer size), the 'all' sampling method returns precisely the transitions of the episodes that are still fully retained: an episode is retained until one of its slots is reused, it is then dropped as a whole, and every returned transition is the very one the caller stored at that position of that episode.", "quantifier": "every buffer size >= 1 and every finite sequence of stored episodes of any lengths and contents", "why_tests_cant": "ring wrap-around, partial overwrites and multi-episode eviction interact; a test exercises a handful of length/size combinations, the claim is about every history", "anchors": ["machin/frame/buffers/buffer.py: Buffer.store_episode, sample_method_all", "machin/frame/buffers/storage.py: TransitionStorageBasic.store_episode"]}
{"id": "C02", "title": "Buffer size accounting", "statement": "size() equals min(buffer size, total number of stored transitions), never exceeds the configured maximum, and the number of sampleable transitions never exceeds size().", "quantifier": "every buffer size >= 1 and every sequence of store_episode calls", "why_tests_cant": "needs an invariant over unbounded histories of wrap-around", "anchors": ["machin/frame/buffers/buffer.py: Buffer.size", "machin/frame/buffers/storage.py: TransitionStorageBasic"]}
{"id": "C03", "title": "Random sampling draws from retained transitions only", "statement": "sample_batch with 'random_unique' (resp. 'random') and a non-negative request n returns exactly min(n, retained) items, never raises, each item is a transition of a retained episode, and for 'random_unique' no stored position is returned twice - whatever the random generator picks.", "quantifier": "every reachable buffer, every requested batch size, every outcome of the random generator", "why_tests_cant": "tests fix seeds or sample a few outcomes; the claim is for every outcome in every reachable buffer", "anchors": ["machin/frame/buffers/buffer.py: Buffer.sample_batch, sample_method_random_unique, sample_method_random"]}
{"id": "C04", "title": "clear() empties the buffer", "statement": "After clear(), the buffer reports size 0 and sampling yields an empty batch instead of failing or returning old data.", "quantifier": "every reachable buffer state before clear() and every later sampling request", "why_tests_cant": "only a state-space argument covers all histories preceding clear(); existing tests clear buffers and never sample before refilling them from empty", "anchors": ["machin/frame/buffers/buffer.py: Buffer.clear, sample_batch", "machin/frame/algorithms/a2c.py: A2C.update", "machin/frame/algorithms/ppo.py: PPO.update"]}
{"id": "C05", "title": "A rejected store_episode leaves the buffer unchanged", "statement": "When store_episode raises (empty episode, missing attributes, or an episode longer than the buffer), what can be sampled afterwards is the same as before the call.", "quantifier": "every reachable buffer and every rejected episode", "why_tests_cant": "failure atomicity has to hold in every state, including after wrap-around", "anchors": ["machin/frame/buffers/buffer.py: Buffer.store_episode", "machin/frame/buffers/storage.py: TransitionStorageBasic.store_episode"]}
{"id": "C06", "title": "Batch post-processing keeps attributes aligned", "statement": "In a sampled batch, row i of every returned attribute (state entries, sub attributes, custom attributes, wildcard dict) comes from the i-th sampled transition; results appear in the order of the requested attributes, unknown attributes are skipped, and '*' yields exactly the custom attributes not already returned.", "quantifier": "every batch of transitions with the same keys and every list of requested attributes, with or without concatenation", "why_tests_cant": "attribute lists and batch contents are unbounded; misalignment corrupts training silently", "anchors": ["machin/frame/buffers/buffer.py: Buffer.post_process_batch, make_tensor_from_batch"]}
{"id": "C07", "title": "Weight tree sums are exact after any history", "statement": "After any sequence of single, batch and full priority updates, every leaf holds the last weight written to it, every inner node is the sum of its two children and get_weight_sum() is the sum of all leaves.", "quantifier": "every tree size >= 2 and every sequence of valid updates", "why_tests_cant": "incremental bottom-up updates can leave one stale inner node for rare index patterns (including the operator-precedence trick in update_leaf)", "anchors": ["machin/frame/buffers/prioritized_buffer.py: WeightTree.update_leaf, update_leaf_batch, update_all_leaves, _build"]}
{"id": "C08", "title": "Weight lookup is the inverse of the cumulative distribution", "statement": "For 0 < w <= get_weight_sum(), find_leaf_index(w) returns the unique leaf i with prefix(i) < w <= prefix(i+1); that leaf has positive weight and is never a padding leaf.", "quantifier": "every reachable tree with non-negative weights and every w in the range", "why_tests_cant": "correctness of proportional sampling for all weights and all tree shapes", "anchors": ["machin/frame/buffers/prioritized_buffer.py: WeightTree.find_leaf_index"]}
{"id": "C09", "title": "Single and batch priority updates agree", "statement": "update_leaf(w,i) and update_leaf_batch([w],[i]) leave the same tree; a batch update equals applying its entries one after another (last write wins on duplicates); update_all_leaves equals a batch update of every leaf, up to the recorded maximum.", "quantifier": "every reachable tree of size >= 2 and every valid batch of weights and indexes", "why_tests_cant": "two independent implementations of the same update over unbounded batches with duplicates", "anchors": ["machin/frame/buffers/prioritized_buffer.py: WeightTree.update_leaf, update_leaf_batch, update_all_leaves"]}
{"id": "C10", "title": "get_leaf_max() is the current maximum leaf weight", "statement": "get_leaf_max() returns the maximum of the current leaf weights.", "quantifier": "every reachable tree", "why_tests_cant": "depends on the whole update history (decreasing the largest weight)", "anchors": ["machin/frame/buffers/prioritized_buffer.py: WeightTree.get_leaf_max, update_leaf, update_leaf_batch"]}
{"id": "C11", "title": "Out-of-range priority updates are rejected without effect", "statement": "Updating or reading a leaf whose index is outside [0,size) raises ValueError and leaves the tree as it was.", "quantifier": "every tree and every index", "why_tests_cant": "boundary index and non-power-of-two sizes", "anchors": ["machin/frame/buffers/prioritized_buffer.py: WeightTree.update_leaf, update_leaf_batch, get_leaf_weight"]}
{"id": "C12", "title": "Stratified prioritized sampling never fails and respects proportions", "statement": "Sampling n >= 2 indexes from a prioritized buffer with positive total weight gives n indexes, the k-th one located in the k-th of n equal slices of the cumulative weight (clipped just below the total), so each has positive priority and refers to a stored transition; indexes are non-decreasing.", "quantifier": "every reachable prioritized buffer, every n >= 2, every outcome of the random generator", "why_tests_cant": "needs the inverse-CDF theorem plus the storage/priority correspondence for all histories", "anchors": ["machin/frame/buffers/prioritized_buffer.py: PrioritizedBuffer.sample_index_and_weight, sample_batch"]}
{"id": "C13", "title": "Prioritized buffer never returns evicted episodes", "statement": "Like the plain buffer, prioritized sampling returns only transitions of episodes that are still retained.", "quantifier": "every reachable prioritized buffer and every outcome of the random generator", "why_tests_cant": "eviction removes whole episodes while priorities are per slot; needs a history argument", "anchors": ["machin/frame/buffers/prioritized_buffer.py: PrioritizedBuffer.store_episode, sample_batch", "machin/frame/buffers/buffer.py: Buffer.store_episode"]}
{"id": "C14", "title": "Beta annealing is monotone and bounded by one", "statement": "The importance-sampling exponent starts at beta, never decreases between clears, is at most 1 after the first sampling, and after k samplings equals min(1, beta + k*increment).", "quantifier": "every initial beta in [0,1], every non-negative increment and every number of samplings", "why_tests_cant": "unbounded number of samplings", "anchors": ["machin/frame/buffers/prioritized_buffer.py: PrioritizedBuffer.sample_index_and_weight, clear"]}
{"id": "C15", "title": "Recurrent buffer windows stay inside one episode", "statement": "Every sub-sequence returned by RNNBuffer sampling consists of sample_length consecutive steps, in order, of a single retained episode of length >= sample_length.", "quantifier": "every buffer reachable by store_episode calls, sample length, batch size and every outcome of the random generator", "why_tests_cant": "wrapped episodes and random starts: unbounded combinations", "anchors": ["machin/frame/buffers/rnn_buffers.py: RNNBuffer.sample_method_random, sample_method_random_unique, sample_method_all"]}
{"id": "C16", "title": "Prioritized recurrent windows stay inside one episode", "statement": "Every sub-sequence returned by RNNPrioritizedBuffer sampling consists of sample_length consecutive steps of a single retained episode.", "quantifier": "every reachable buffer and every outcome of the random generator", "why_tests_cant": "windows are read at consecutive storage positions, which only coincides with the episode order when the episode did not wrap", "anchors": ["machin/frame/buffers/rnn_buffers.py: RNNPrioritizedBuffer.store_episode, sample_batch"]}
{"id": "C17", "title": "Stale distributed priority updates are ignored", "statement": "A priority update computed from a distributed sample only changes the priority of positions that still hold the sampled transition; positions overwritten in the meantime keep their newer priority.", "quantifier": "every history of stores, samples, clears and delayed updates on a member, in any order", "why_tests_cant": "a race between samplers and writers: the set of interleavings is unbounded", "anchors": ["machin/frame/buffers/prioritized_buffer_d.py: DistributedPrioritizedBuffer.store_episode, _update_priority_service, _sample_service, clear"]}
{"id": "C18", "title": "Distributed priority updates reach the sampled entries", "statement": "update_priority splits the priority vector so that the j-th priority is sent, together with its index and version, to exactly the member the j-th sampled transition came from.", "quantifier": "every number of members and every per-member sample size (including zero)", "why_tests_cant": "offset bookkeeping over arbitrary member counts", "anchors": ["machin/frame/buffers/prioritized_buffer_d.py: DistributedPrioritizedBuffer.sample_batch, update_priority"]}
{"id": "C19", "title": "Distributed uniform buffer totals", "statement": "all_size() is the sum of member sizes; a distributed sample asks each member for ceil(n/members) items and the result is the concatenation, in member order, of what they return; at least min(n, available) transitions are returned when each member holds enough.", "quantifier": "every number of members, request size and member content", "why_tests_cant": "arithmetic over all member counts and sizes", "anchors": ["machin/frame/buffers/buffer_d.py: DistributedBuffer.sample_batch, all_size"]}
{"id": "C20", "title": "Ordered server push is a compare-and-swap", "statement": "A push(key, value, version, prev_version) succeeds iff the key is new or prev_version is the newest stored version; after any history pull(key) returns the value and version of the last successful push, and failed pushes change nothing.", "quantifier": "every sequence (hence every serialisation of concurrent clients) of pushes and pulls on any keys", "why_tests_cant": "linearisation over arbitrary interleavings of many clients", "anchors": ["machin/parallel/server/ordered_server.py: OrderedServerSimpleImpl._push_service, _pull_service"]}
{"id": "C21", "title": "Ordered server keeps a bounded window of recent versions", "statement": "The server stores at most version_depth+1 versions per key, always the most recently pushed ones, and pulling a retained version returns exactly the value pushed under it (for histories that never reuse a version number).", "quantifier": "every version_depth >= 1 and every push history", "why_tests_cant": "retention over unbounded histories", "anchors": ["machin/parallel/server/ordered_server.py: OrderedServerSimpleImpl._push_service, _pull_service"]}
{"id": "C22", "title": "Model server never loses an accepted update", "statement": "With any number of clients pushing and pulling concurrently through PushPullModelServer, accepted pushes carry strictly increasing versions without gaps, each accepted push was made by a client whose local version was the newest, a rejected client with pull_on_fail ends with the newest parameters, and a client's local version never decreases.", "quantifier": "every number of clients and every interleaving of their push/pull calls (each remote call atomic)", "why_tests_cant": "interleavings of many processes", "anchors": ["machin/parallel/server/param_server.py: PushPullModelServer.push, pull"]}
{"id": "C23", "title": "Gradient server consumes gradients exactly once, in FIFO batches", "statement": "Each gradient pushed to a reducer is, in arrival order, either part of exactly one reduced batch, discarded because the queue overflowed, or still queued; each reduction of a batch is the key-wise sum (or mean) of its members.", "quantifier": "every interleaving of pushes and reduction rounds, every batch size and queue bound with 1 < batch < bound", "why_tests_cant": "producer/consumer schedules are unbounded", "anchors": ["machin/parallel/server/param_server.py: PushPullGradServerImpl._push_service, _task_reduce_grad, _reduce_batch"]}
{"id": "C24", "title": "Pool.map returns results in input order for every completion order", "statement": "map/starmap over any iterable with any chunk size >= 1 returns [f(x) for x in iterable] once all chunks have completed, regardless of the order in which workers finish; if a chunk fails the call raises a task exception instead, and the result becomes ready exactly when every chunk has reported.", "quantifier": "every input list, chunk size, worker count and completion order", "why_tests_cant": "completion orders grow factorially", "anchors": ["machin/parallel/pool.py: BasePool._map_async, _split_tasks, MapResult._set"]}
{"id": "C25", "title": "imap yields every result once and in order", "statement": "The iterator returned by imap yields exactly the task results in input order for every arrival order of the results; imap_unordered yields each result exactly once.", "quantifier": "every input list and every arrival order, with consumption interleaved arbitrarily", "why_tests_cant": "arrival/consumption interleavings are unbounded", "anchors": ["machin/parallel/pool.py: IMapIterator, IMapUnorderedIterator"]}
{"id": "C26", "title": "A closed pool can always be joined", "statement": "After close(), once every submitted task has completed, the pool's worker handler terminates (no job stays pending), so join() returns.", "quantifier": "every sequence of apply/map/imap submissions and every completion order", "why_tests_cant": "requires the job cache to be drained for every kind of submission and every schedule", "anchors": ["machin/parallel/pool.py: BasePool._handle_workers, _map_async, _imap, IMapIterator._set, _set_length"]}
{"id": "C27", "title": "Context pool workers keep distinct contexts", "statement": "In a CtxPool at every moment the live workers use pairwise distinct worker contexts taken from the supplied list, also after workers crash or exit and are replaced, in any order.", "quantifier": "every worker count and every history of crashes and replacements", "why_tests_cant": "crash/replacement histories are unbounded", "anchors": ["machin/parallel/pool.py: CtxPool, BasePool.maintain_pool/repopulate_pool"]}
{"id": "C28", "title": "Paired values have one owner", "statement": "In an RPC group lookup table a key is owned by at most one process; pairing an existing key fails without changing the owner; only the owner can unpair it; lookups return the current owner.", "quantifier": "every sequence of pair/unpair/lookup requests from any processes", "why_tests_cant": "interleavings of requests from many processes", "anchors": ["machin/parallel/distributed/_world.py: _rpc_set_lut_entry, _rpc_unset_lut_entry, _rpc_get_lut_entry, RpcGroup.pair, unpair"]}
{"id": "C29", "title": "RPC group barrier separates phases", "statement": "No process returns from RpcGroup.barrier before every member has entered it, and once every member has entered, every member eventually can return.", "quantifier": "every number of members and every interleaving of barrier calls and remote calls", "why_tests_cant": "schedules of distributed processes; a lost wake-up appears only in rare interleavings", "anchors": ["machin/parallel/distributed/_world.py: RpcGroup.barrier, _rpc_exit_barrier"]}
{"id": "C30", "title": "RPC group creation waits for all members", "statement": "create_rpc_group returns on a member only after every listed member has called it.", "quantifier": "every member list and every interleaving", "why_tests_cant": "schedules of distributed processes", "anchors": ["machin/parallel/distributed/_world.py: World.create_rpc_group"]}
{"id": "C31", "title": "n-step returns", "statement": "The value stored by RAINBOW.store_episode for step i is the discounted sum of the next min(n, remaining) rewards.", "quantifier": "every episode length, n >= 1, discount and rewards", "why_tests_cant": "unbounded episode lengths and n", "anchors": ["machin/frame/algorithms/rainbow.py: RAINBOW.store_episode"]}
{"id": "C32", "title": "A2C returns and generalized advantages", "statement": "A2C.store_episode computes for each step the full discounted return and the generalized advantage estimate sum_k (gamma*lambda)^k delta_{t+k}; the special branches for lambda=0 and lambda=1 agree with the general recursion.", "quantifier": "every episode of transitions, critic, discount and lambda", "why_tests_cant": "algebraic identity over unbounded episode lengths; branch agreement fails only for particular shapes of episodes", "anchors": ["machin/frame/algorithms/a2c.py: A2C.store_episode"]}
{"id": "C33", "title": "V-trace targets", "statement": "IMPALA's update computes, for each sampled episode, the V-trace targets v_s = V(x_s) + sum_t gamma^(t-s) (prod c) delta_t of that episode, and the targets of an episode do not depend on the other episodes in the batch.", "quantifier": "every batch of episodes of any lengths, values, rewards and importance ratios", "why_tests_cant": "segment bookkeeping and recursion over unbounded batches", "anchors": ["machin/frame/algorithms/impala.py: IMPALA.update, store_episode"]}
{"id": "C34", "title": "Distributional projection preserves probability", "statement": "RAINBOW's projected target distribution has total mass one (given that the next-state distribution has) and non-negative entries.", "quantifier": "every support, reward, discount, terminal flag and next-state distribution", "why_tests_cant": "exact hits of support atoms are measure-zero for random tests but common with integer rewards", "anchors": ["machin/frame/algorithms/rainbow.py: RAINBOW.update"]}
{"id": "C35", "title": "Importance weights act per sample", "statement": "In prioritized DQN, DDPG and RAINBOW updates the loss is the mean over samples of weight_i * loss_i.", "quantifier": "every batch size, losses and weights", "why_tests_cant": "shape broadcasting silently changes the formula without raising", "anchors": ["machin/frame/algorithms/rainbow.py: RAINBOW.update", "machin/frame/algorithms/dqn_per.py: DQNPer.update"]}
{"id": "C36", "title": "Target network tracking", "statement": "soft_update(target, source, tau) makes each target parameter (1-tau)*target + tau*source; with a fixed source the distance shrinks by exactly (1-tau) each time and stays a convex combination; with update_steps=k the target equals the online network right after every k-th update and is unchanged in between.", "quantifier": "every parameter vector, tau in [0,1], k >= 1 and number of updates", "why_tests_cant": "unbounded number of updates", "anchors": ["machin/frame/algorithms/utils.py: soft_update, hard_update", "machin/frame/algorithms/dqn.py: DQN.update", "machin/frame/algorithms/ddpg.py: DDPG.update"]}
{"id": "C37", "title": "Running statistics are exact and mergeable", "statement": "Pushing any sequence into RunningStat yields the mean and the unbiased variance of that sequence; merging two statistics gives the statistics of the concatenation.", "quantifier": "every pair of finite sequences (at least one non-empty when merging)", "why_tests_cant": "algebraic identity over unbounded sequences", "anchors": ["machin/frame/algorithms/ars.py: RunningStat.push, update, mean, var"]}
{"id": "C38", "title": "Filter synchronisation counts every observation once", "statement": "When the ARS manager collects the filters of all members, the merged statistics are those of all observations made so far, each counted once.", "quantifier": "every number of workers and every observation history", "why_tests_cant": "double counting does not raise and only biases the statistics", "anchors": ["machin/frame/algorithms/ars.py: MeanStdFilter.filter, collect, clear_local, sync, ARS.update"]}
{"id": "C39", "title": "Normalisation statistics are frozen between apply_stats calls", "statement": "The mean and std used by MeanStdFilter.filter change only when apply_stats is called.", "quantifier": "every sequence of filter/apply_stats calls", "why_tests_cant": "aliasing is visible only for particular call orders", "anchors": ["machin/frame/algorithms/ars.py: MeanStdFilter.filter, apply_stats, RunningStat.push"]}
{"id": "C40", "title": "ARS rollouts are partitioned among workers", "statement": "The rollout index ranges of all workers are pairwise disjoint and cover [0, rollout_num) exactly, and the noise seeds of different (rollout, parameter) pairs differ.", "quantifier": "every rollout number, worker count and parameter count", "why_tests_cant": "ceil-division corner cases (more workers than rollouts)", "anchors": ["machin/frame/algorithms/ars.py: ARS.__init__"]}
{"id": "C41", "title": "ARS keeps at least the requested best rollouts", "statement": "The rollouts used for the update are the ones whose best reward reaches the percentile threshold: at least used_rollout_num of them, every selected one is at least as good as every dropped one, and exactly used_rollout_num when rewards at the boundary differ.", "quantifier": "every list of rewards and every used_rollout_num in [1, rollout_num]", "why_tests_cant": "ties and interpolation for unbounded lists", "anchors": ["machin/frame/algorithms/ars.py: ARS.update"]}
{"id": "C42", "title": "MADDPG buffers stay aligned", "statement": "After any history of store_episodes, position i of every agent's buffer holds the same time step of the same joint episode, so sampling the same indexes in all buffers yields joint transitions.", "quantifier": "every number of agents, buffer size and history", "why_tests_cant": "alignment must survive wrap-around for every history", "anchors": ["machin/frame/algorithms/maddpg.py: MADDPG.store_episodes, update, _create_sample_method"]}
{"id": "C43", "title": "Model loading picks one consistent version", "statement": "prep_load_model loads the requested version iff it exists for every network, otherwise the newest version present for all networks; all networks are restored from the same version.", "quantifier": "every directory content and requested version", "why_tests_cant": "directory contents are unbounded", "anchors": ["machin/utils/prepare.py: prep_load_model", "machin/frame/algorithms/base.py: TorchFramework.load, save"]}
{"id": "C44", "title": "Piecewise constant learning rate", "statement": "The function built by gen_learning_rate_func returns, for every step, the learning rate of the last threshold not larger than the step.", "quantifier": "every sorted learning-rate map and every step", "why_tests_cant": "steps before the first threshold", "anchors": ["machin/utils/learning_rate.py: gen_learning_rate_func"]}
{"id": "C45", "title": "User settings survive generate_config", "statement": "generate_config keeps every frame_config value the user supplied and only fills in missing defaults.", "quantifier": "every user configuration", "why_tests_cant": "depends on which keys overlap with the defaults", "anchors": ["machin/frame/algorithms/dqn.py: DQN.generate_config", "machin/frame/algorithms/a2c.py: A2C.generate_config"]}
{"id": "C46", "title": "Finalizer runs its callback at most once", "statement": "A Finalize callback is executed at most once, exactly once if it is called before being cancelled in the registering process, and never after cancel() or in another process.", "quantifier": "every sequence of call/cancel events from any process ids", "why_tests_cant": "event orders are unbounded", "anchors": ["machin/parallel/util.py: Finalize"]}
{"id": "C47", "title": "safe_call binds arguments by name", "statement": "safe_call passes to the model exactly the dictionary entries whose keys are parameters of the called method (later dictionaries win) and raises iff some parameter without default is missing.", "quantifier": "every signature and every list of argument dictionaries", "why_tests_cant": "signatures with defaults and keyword-only parameters combine arbitrarily", "anchors": ["machin/frame/algorithms/utils.py: safe_call"]}
{"id": "C48", "title": "Parameter noise is reversible", "statement": "With parameter-space perturbation switched off the forward pass uses the unperturbed parameters, whatever sequence of perturb/reset switch settings preceded it.", "quantifier": "every sequence of switch settings and forward passes", "why_tests_cant": "call orders are unbounded", "anchors": ["machin/frame/noise/param_space_noise.py: _add_perturb_hook, perturb_model"]}
{"id": "C49", "title": "Parallel environments return results for the right environment", "statement": "ParallelWrapperSubProc returns, for each selected environment in the requested order, the result of the method call made in this request, whatever the order in which workers answer.", "quantifier": "every index selection and every arrival order, including after a failed call", "why_tests_cant": "arrival orders and failures of concurrent workers", "anchors": ["machin/env/wrappers/openai_gym.py: ParallelWrapperSubProc._call_gym_env_method"]}
{"id": "C50", "title": "TRPO line search respects the trust region", "statement": "If the line search reports success, the model parameters are old + 0.5^i * step for some i < backtracks with KL <= limit and a strictly lower loss, and all larger tried steps violated one of these; if it reports failure the parameters are restored exactly.", "quantifier": "every loss/KL function, step and starting parameters", "why_tests_cant": "functions are arbitrary", "anchors": ["machin/frame/algorithms/trpo.py: TRPO._line_search"]}
{"id": "C51", "title": "Importance-sampling weights are normalized", "statement": "The importance-sampling weights returned with a prioritized sample lie in (0,1], the largest one is exactly 1, and a sampled transition with a larger priority never gets a larger weight.", "quantifier": "every reachable prioritized buffer, every n >= 2, every outcome of the random generator, every positive antitone power function", "why_tests_cant": "needs positivity of all sampled priorities in every reachable state", "anchors": ["machin/frame/buffers/prioritized_buffer.py: PrioritizedBuffer.sample_index_and_weight"]}
{"id": "C52", "title": "Transition objects are always valid", "statement": "A Transition object always has single-row tensors in its major attributes and scalars or single-row tensors in its sub attributes: after construction and after any item or attribute assignment, accepted or rejected; an accepted assignment stores the value.", "quantifier": "every transition and every assignment", "why_tests_cant": "all attribute layouts and values", "anchors": ["machin/frame/transition.py: TransitionBase, Transition"]}
{"id": "C53", "title": "Size of a distributed prioritized sample", "statement": "A distributed prioritized sample of n >= 1 items from p members returns at least n and fewer than n + p items, provided the total weight of the group exceeds n * 1e-6 and no member raises.", "quantifier": "every number of members, every reachable member state, every n and every outcome of the random generators", "why_tests_cant": "rounding of shares over arbitrary member counts and weights", "anchors": ["machin/frame/buffers/prioritized_buffer_d.py: DistributedPrioritizedBuffer.sample_batch"]}
{"id": "C54", "title": "Every P2PPool queue keeps its own worker", "statement": "In a P2PPool every sub queue is served by exactly one worker, initially and after workers that died have been replaced.", "quantifier": "every number of workers and every set of workers that died", "why_tests_cant": "replacement histories are unbounded", "anchors": ["machin/parallel/pool.py: P2PPool.repopulate_pool, BasePool.maintain_pool"]}
{"id": "C55", "title": "Completion callbacks are called exactly once", "statement": "apply_async and map_async call the success or error callback exactly once, when the result becomes ready, with the value that get() returns or raises; never before.", "quantifier": "every submission and every completion order", "why_tests_cant": "completion orders grow factorially", "anchors": ["machin/parallel/pool.py: AsyncResult.set, MapResult.set, BasePool._map_async"]}
{"id": "C56", "title": "Destroying an RPC group releases its names", "statement": "After a process destroys its RPC group object, the keys it had paired or registered in that group can be paired or registered again, in particular when the group is created anew under the same name.", "quantifier": "every table state, process, group and key", "why_tests_cant": "depends on histories of create, pair, destroy and lookup over several processes", "anchors": ["machin/parallel/distributed/_world.py: RpcGroup.destroy, RpcGroup.__init__, register, _rpc_call_service"]}
{"id": "C57", "title": "ARS gradient pairs every reward with its own noise", "statement": "The gathered rollouts of any number of workers give the gradient estimate sum over the selected rollouts of (negative reward - positive reward)/scale times the noise slice of that very rollout, independent of how the rollouts are split over workers; a rollout without a recorded positive or negative reward is rejected.", "quantifier": "every rollout count, worker split, reward assignment and noise array", "why_tests_cant": "all splits of rollouts over workers", "anchors": ["machin/frame/algorithms/ars.py: ARS.update, ARS._get_reward_and_delta"]}
{"id": "C58", "title": "ARS noise array is large enough", "statement": "Constructing ARS with a noise array no larger than the largest parameter raises ValueError; a sampled slice always has the requested size and lies inside the array.", "quantifier": "every noise array size, parameter size and random outcome", "why_tests_cant": "all size combinations", "anchors": ["machin/frame/algorithms/ars.py: ARS._generate_parameters, SharedNoiseSampler"]}
{"id": "C59", "title": "Saved models can be loaded again", "statement": "After save(dir, network_map, version) a load with the same arguments restores every restorable module to the saved contents and touches no other module; save changes no other file of the directory.", "quantifier": "every framework, directory content, network map and version", "why_tests_cant": "directory contents and names are unbounded", "anchors": ["machin/frame/algorithms/base.py: TorchFramework.save, load", "machin/utils/prepare.py: prep_load_model"]}
{"id": "C60", "title": "Backward pass removes the parameter noise", "statement": "After the backward pass of a perturbed forward pass all perturbed parameters of the model hold their unperturbed values again, so that the optimizer updates the unperturbed parameters.", "quantifier": "every model with any number of parameters", "why_tests_cant": "depends on when the closure variables are read", "anchors": ["machin/frame/noise/param_space_noise.py: perturb_model"]}
{"id": "C61", "title": "Config objects behave like dictionaries", "statement": "A Config is a mapping of the values assigned to it: c[k] is the last value assigned, k in c holds iff k was assigned, c.get(k, d) is d for every other key, iteration yields the assigned keys.", "quantifier": "every sequence of assignments and every key", "why_tests_cant": "all key sequences", "anchors": ["machin/utils/conf.py: Config", "machin/utils/helper_classes.py: Object"]}
{"id": "C62", "title": "Finalizers run when their object is collected", "statement": "When the object tracked by a Finalize is garbage collected in the registering process and the finalizer was neither called nor cancelled, the callback is executed.", "quantifier": "every history of calls, cancellations, forks and collections", "why_tests_cant": "depends on the interpreter's weak reference protocol", "anchors": ["machin/parallel/util.py: Finalize"]}
{"id": "C63", "title": "fill_default keeps settings and adds the missing ones", "statement": "fill_default returns a configuration in which every present key keeps its value and every missing key has the default value.", "quantifier": "every default and user configuration, dict or Config", "why_tests_cant": "all key sets", "anchors": ["machin/auto/config.py: fill_default"]}
{"id": "C64", "title": "merge_config overwrites exactly the given keys", "statement": "merge_config gives every key of the merged dictionary the new value and keeps all others; keys declared const are kept when a Config is merged.", "quantifier": "every configuration and every merged dictionary or Config", "why_tests_cant": "all key sets", "anchors": ["machin/utils/conf.py: merge_config"]}
{"id": "C65", "title": "Noise deviation adapts towards the target", "statement": "AdaptiveParamNoise keeps its deviation positive, shrinks it when the latest perturbed action is farther from the latest unperturbed one than desired and grows it otherwise, once per pair of such passes.", "quantifier": "every sequence of perturbed and unperturbed passes and every distance function", "why_tests_cant": "call orders are unbounded", "anchors": ["machin/frame/noise/param_space_noise.py: AdaptiveParamNoise.adapt, perturb_adjust_hook"]}
{"id": "C66", "title": "active() lists the running environments", "statement": "active() returns exactly the environments for which no step since their last reset reported the end of the episode; the single-process wrapper refuses a step iff a selected environment has ended.", "quantifier": "every sequence of reset and step calls, selections with repeated indexes included", "why_tests_cant": "call sequences are unbounded", "anchors": ["machin/env/wrappers/openai_gym.py: ParallelWrapperDummy, ParallelWrapperSubProc: reset, step, active"]}
{"id": "C67", "title": "Conjugate gradients meet the residual threshold", "statement": "For a linear operator the x returned by _conjugate_gradients has |b - A x|^2 below the threshold, unless none of the allowed iterates has.", "quantifier": "every linear operator, right-hand side, eps, threshold and number of iterations", "why_tests_cant": "operators and dimensions are arbitrary", "anchors": ["machin/frame/algorithms/trpo.py: TRPO._conjugate_gradients"]}
{"id": "C68", "title": "compare_kl of the continuous TRPO actor is a KL divergence", "statement": "ActorContinuous.compare_kl returns the KL divergence between the policies with the given and the current parameters; in particular it is not negative.", "quantifier": "all means and standard deviations, every action dimension", "why_tests_cant": "continuous parameters; depends on tensor aliasing", "anchors": ["machin/model/algorithms/trpo.py: ActorContinuous.compare_kl"]}
{"id": "C69", "title": "line_search_backtracks bounds the line search", "statement": "TRPO.update tries exactly up to line_search_backtracks step fractions.", "quantifier": "every setting of line_search_backtracks, every loss and KL function", "why_tests_cant": "settings and functions are arbitrary", "anchors": ["machin/frame/algorithms/trpo.py: TRPO.__init__, TRPO.update, TRPO._line_search"]}
{"id": "C70", "title": "get_fim of the discrete TRPO actor is the Fisher information", "statement": "ActorDiscrete.get_fim returns the diagonal of the Fisher information of a categorical distribution in its probabilities, 1 / p.", "quantifier": "every probability vector", "why_tests_cant": "continuous parameters", "anchors": ["machin/model/algorithms/trpo.py: ActorDiscrete.get_fim"]}
{"id": "C71", "title": "Waiting on combined events", "statement": "is_set() of an OrEvent / AndEvent is the disjunction / conjunction of its arguments, nested combined events included. A thread in wait() without timeout returns once the condition holds, and only then.", "quantifier": "every nesting of combined events and every interleaving of set, clear and wait calls", "why_tests_cant": "all interleavings of several threads", "anchors": ["machin/parallel/event.py: MultiEvent, OrEvent, AndEvent, init_or_register"]}
{"id": "C72", "title": "wait(timeout) of combined events", "statement": "wait(timeout) returns as soon as the condition holds and at the latest when the timeout is over.", "quantifier": "every timeout and every sequence of notifications", "why_tests_cant": "timing", "anchors": ["machin/parallel/event.py: MultiEvent.wait"]}
{"id": "C73", "title": "Thread exceptions are reported", "statement": "After the end of a Thread, watch() raises and exception is set on every call iff the target or the cleaner raised, and both exceptions are reported in this order.", "quantifier": "every outcome of target and cleaner", "why_tests_cant": "all combinations", "anchors": ["machin/parallel/thread.py: Thread.run, watch, exception"]}
{"id": "C74", "title": "Process exceptions are reported", "statement": "After the end of a Process, watch() raises on every call iff the target or the cleaner raised; watch() never blocks for ever.", "quantifier": "every schedule of the child and of the owner's calls, every message length", "why_tests_cant": "needs long tracebacks and rare schedules", "anchors": ["machin/parallel/process.py: Process.run, watch, exception"]}
{"id": "C75", "title": "MultiP2PQueue delivers every object once", "statement": "Objects put into a sub queue are returned by quick_get exactly once and in order; quick_put distributes over the sub queues in turn.", "quantifier": "every interleaving of puts and gets, any number of sub queues", "why_tests_cant": "all interleavings", "anchors": ["machin/parallel/queue.py: MultiP2PQueue"]}
{"id": "C76", "title": "MultiP2PQueue does not starve a sub queue", "statement": "An object in any sub queue is eventually returned by quick_get.", "quantifier": "every schedule with repeated quick_get calls", "why_tests_cant": "unbounded schedules", "anchors": ["machin/parallel/queue.py: MultiP2PQueue.quick_get"]}
{"id": "C77", "title": "Constant attributes of an Object cannot be changed", "statement": "A key in const_attrs keeps its value whatever is assigned to the object, and assigning it raises.", "quantifier": "every sequence of item and attribute assignments", "why_tests_cant": "all sequences", "anchors": ["machin/utils/helper_classes.py: Object.__setattr__"]}
{"id": "C78", "title": "Counters and triggers", "statement": "A Counter shows start plus step times the number of counts since the last reset. A Trigger reports every activation at most once, and reports it at the next get() unless it was turned off.", "quantifier": "every sequence of operations", "why_tests_cant": "all sequences", "anchors": ["machin/utils/helper_classes.py: Counter, Switch, Trigger"]}
{"id": "C79", "title": "ModelAssigner uses available devices", "statement": "Every model is assigned exactly one device, which was requested and is available, or the CPU when none is; construction is refused iff the estimated total exceeds the total allowance.", "quantifier": "every list of devices, models and every behaviour of the optimizer", "why_tests_cant": "hardware dependent", "anchors": ["machin/parallel/assigner.py: ModelAssigner.__init__"]}
{"id": "C80", "title": "Assigned models fit their device", "statement": "The models assigned to a device do not exceed the memory allowed on it.", "quantifier": "every list of devices and models", "why_tests_cant": "hardware dependent", "anchors": ["machin/parallel/assigner.py: ModelAssigner"]}
{"id": "C81", "title": "Device distance matrix", "statement": "The distance matrix is symmetric with zero diagonal, equal devices have distance zero, and other pairs the configured distances.", "quantifier": "every list of devices", "why_tests_cant": "all lists", "anchors": ["machin/parallel/assigner.py: ModelAssigner.__init__ 257-273"]}
{"id": "C82", "title": "Uniform action noise", "statement": "add_uniform_noise_to_action adds ratio times a value in [min, max) to every entry, drawn uniformly, with the parameters of the entry's column when one tuple per column is given; a wrong number of tuples is refused. UniformNoiseGen stays within its bounds.", "quantifier": "every action shape, parameter tuple(s), ratio and draw", "why_tests_cant": "random values, arbitrary shapes", "anchors": ["machin/frame/noise/action_space_noise.py: add_uniform_noise_to_action", "machin/frame/noise/generator.py: UniformNoiseGen"]}
{"id": "C83", "title": "Clipped normal noise", "statement": "add_clipped_normal_noise_to_action adds normal noise clipped to [clip_min, clip_max], and ClippedNormalNoiseGen generates it.", "quantifier": "every action shape, parameter tuple(s) and draw", "why_tests_cant": "random values", "anchors": ["machin/frame/noise/action_space_noise.py: add_clipped_normal_noise_to_action", "machin/frame/noise/generator.py: ClippedNormalNoiseGen"]}
{"id": "C84", "title": "Normal action noise", "statement": "add_normal_noise_to_action adds ratio * (mean + sigma * z) with z standard normal, for one parameter tuple and for one per column.", "quantifier": "every action shape, parameter tuple(s), ratio and draw", "why_tests_cant": "random values", "anchors": ["machin/frame/noise/action_space_noise.py: add_normal_noise_to_action"]}
{"id": "C85", "title": "Ornstein-Uhlenbeck noise", "statement": "After a reset the n-th value of OrnsteinUhlenbeckNoiseGen is the solution of its recurrence: the initial value and all draws, discounted by powers of 1 - theta dt, around mu. A reset forgets everything; an initial value of another shape is refused.", "quantifier": "every number of calls, all draws and parameters", "why_tests_cant": "unbounded sequences of random values", "anchors": ["machin/frame/noise/generator.py: OrnsteinUhlenbeckNoiseGen"]}
{"id": "C86", "title": "Ornstein-Uhlenbeck action noise keeps the shape", "statement": "add_ou_noise_to_action returns an action of the shape of its argument, also without noise_param.", "quantifier": "every sequence of calls with actions of any shapes", "why_tests_cant": "state shared between calls", "anchors": ["machin/frame/noise/action_space_noise.py: add_ou_noise_to_action"]}
{"id": "C87", "title": "check_model checks every leaf module", "statement": "check_model hooks exactly the leaf modules and the modules marked as atoms, except below atoms.", "quantifier": "every module tree and naming", "why_tests_cant": "all trees and names", "anchors": ["machin/utils/checker.py: check_model"]}
{"id": "C88", "title": "check_model checks every parameter", "statement": "The parameter hooks of a module are called with each of its parameters.", "quantifier": "every list of parameters", "why_tests_cant": "all lists", "anchors": ["machin/utils/checker.py: _add_param_check_hook"]}
{"id": "C89", "title": "check_model checks all of the output", "statement": "Every entry of a module's output is in a value given to the output hooks.", "quantifier": "every output, with and without names", "why_tests_cant": "all shapes", "anchors": ["machin/utils/checker.py: _add_output_check_hook"]}
{"id": "C90", "title": "check_model names the inputs", "statement": "Every input is given to the input hooks together with the name of its parameter in forward().", "quantifier": "every signature and input list", "why_tests_cant": "all signatures", "anchors": ["machin/utils/checker.py: _add_input_check_hook"]}
{"id": "C91", "title": "DQN regression targets", "statement": "For each sample the target is the reward if the transition is terminal and otherwise the reward plus the discounted value of a greedy next action: chosen and valued by the online network (vanilla), by the target network (fixed_target), or chosen by the online and valued by the target network (double). The double target never exceeds the fixed target one.", "quantifier": "every mode, pair of networks, batch, discount and tie-breaking of argmax", "why_tests_cant": "all networks and batches", "anchors": ["machin/frame/algorithms/dqn.py: update, reward_function"]}
{"id": "C92", "title": "epsilon-greedy exploration", "statement": "In every sequence of act_discrete_with_noise calls the epsilon used is epsilon_decay to the power of the number of earlier decaying calls; below it the random actions are returned, otherwise greedy ones; all actions are valid and epsilon stays in [0, 1] without growing.", "quantifier": "every call sequence, draw and network", "why_tests_cant": "all sequences", "anchors": ["machin/frame/algorithms/dqn.py: act_discrete_with_noise"]}
{"id": "C93", "title": "DQN target network in every mode", "statement": "In modes fixed_target and double the target network follows the online network under both update schemes; in mode vanilla it is the online network.", "quantifier": "every mode, scheme and sequence of updates", "why_tests_cant": "all sequences", "anchors": ["machin/frame/algorithms/dqn.py: __init__, update"]}
{"id": "C94", "title": "policy losses average over the batch", "statement": "The actor's loss is minus the mean, over the whole sampled batch, of the critic's values of its actions (for SAC of the smaller value minus alpha times the log probability).", "quantifier": "every batch", "why_tests_cant": "all batches", "anchors": ["machin/frame/algorithms/ddpg.py: update", "machin/frame/algorithms/td3.py: update", "machin/frame/algorithms/sac.py: update"]}
{"id": "C95", "title": "pessimistic targets of TD3 and SAC", "statement": "The target is the reward for terminal transitions and otherwise uses the smaller of the two target critics' values of the next action, plus alpha times the entropy term in SAC; for TD3 it is at most either critic's own target.", "quantifier": "all networks, samples and nonnegative discounts", "why_tests_cant": "all networks", "anchors": ["machin/frame/algorithms/td3.py: update", "machin/frame/algorithms/sac.py: update"]}
{"id": "C96", "title": "hysteretic updates", "statement": "The value the HDDPG critic is trained towards moves from the current value by the increase rate times the difference if the target is above, by the decrease rate times it otherwise; for rates in [0, 1] it lies between both.", "quantifier": "all values and rates", "why_tests_cant": "all rationals", "anchors": ["machin/frame/algorithms/hddpg.py: update"]}
{"id": "C97", "title": "noisy discrete actions of DDPG", "statement": "A batch of action probabilities yields one valid action per row; the softened probabilities are positive, sum to one, keep the order, and give the largest component of an extreme output exactly choose_max_prob.", "quantifier": "every batch, choose_max_prob in (0, 1) and draw", "why_tests_cant": "all batch sizes", "anchors": ["machin/frame/algorithms/ddpg.py: act_discrete_with_noise"]}
{"id": "C98", "title": "new priorities are temporal difference errors", "statement": "After an update the priority of each sample is set to the absolute difference between the critic's value of the stored action and the target.", "quantifier": "every batch and network", "why_tests_cant": "all batches", "anchors": ["machin/frame/algorithms/dqn_per.py: update", "machin/frame/algorithms/ddpg_per.py: update"]}
{"id": "C99", "title": "SAC temperature", "statement": "After any update of alpha it lies in the clamp range; with gradient descent it grows while the entropy is below the target and shrinks while it is above; it never changes when switched off.", "quantifier": "all optimizers, batches and sequences of updates", "why_tests_cant": "all sequences", "anchors": ["machin/frame/algorithms/sac.py: update"]}
{"id": "C100", "title": "loading restores online networks", "statement": "After load every online network equals its restored target network.", "quantifier": "all networks of matching shapes", "why_tests_cant": "all networks", "anchors": ["machin/frame/algorithms/sac.py: load", "machin/frame/algorithms/td3.py: load"]}
{"id": "C101", "title": "every learning rate scheduler is stepped", "statement": "n calls of update_lr_scheduler step every scheduler of the framework n times.", "quantifier": "all n", "why_tests_cant": "all n", "anchors": ["machin/frame/algorithms/sac.py: update_lr_scheduler", "machin/frame/algorithms/td3.py: update_lr_scheduler"]}
{"id": "C102", "title": "PPO's clipped surrogate", "statement": "The surrogate is ratio times advantage inside the trust region and constant outside it on the improving side; the policy loss is minus its batch mean plus the weighted mean entropy.", "quantifier": "all ratios, advantages, batches and nonnegative clips", "why_tests_cant": "all rationals", "anchors": ["machin/frame/algorithms/ppo.py: update"]}
{"id": "C103", "title": "PPO compares with the policy before the update", "statement": "In every pass the old log probability is that of the actor from before the update, and when update ends, normally or not, self.actor is the framework's own network.", "quantifier": "every number of passes, training step and failing evaluation", "why_tests_cant": "all executions", "anchors": ["machin/frame/algorithms/ppo.py: update"]}
{"id": "C104", "title": "advantage normalisation", "statement": "Normalised advantages are numbers that sum to zero and are proportional to the deviations from the mean.", "quantifier": "every batch", "why_tests_cant": "all batch sizes", "anchors": ["machin/frame/algorithms/ppo.py: update", "machin/frame/algorithms/a2c.py: update"]}
{"id": "C105", "title": "GAIL trains its discriminator", "statement": "Discriminator updates change the discriminator by its gradients and leave the actor unchanged.", "quantifier": "every optimizer, gradient and number of updates", "why_tests_cant": "all executions", "anchors": ["machin/frame/algorithms/gail.py: __init__, update"]}
{"id": "C106", "title": "GAIL stores expert episodes completely", "statement": "store_expert_episode stores every transition of the episode, given as dict or as ExpertTransition.", "quantifier": "every episode", "why_tests_cant": "all episodes", "anchors": ["machin/frame/algorithms/gail.py: store_expert_episode"]}
{"id": "C107", "title": "MADDPG optimizers can be read and set", "statement": "Setting the optimizers that were read leaves every actor and critic with its own optimizer.", "quantifier": "every number of actors, sub-policies and critics", "why_tests_cant": "all shapes", "anchors": ["machin/frame/algorithms/maddpg.py: optimizers"]}
{"id": "C108", "title": "Gradient servers are set up as configured", "statement": "grad_server_helper gives server i the model of creator i, an optimizer of the given class over that model with learning rate i and keyword arguments i, and, if a scheduler class is given, a scheduler over that optimizer.", "quantifier": "every number of models, every rates and arguments", "why_tests_cant": "all numbers of models; tests use no scheduler", "anchors": ["machin/frame/helpers/servers.py: grad_server_helper"]}
{"id": "C109", "title": "No gradient server is left without a model", "statement": "If grad_server_helper returns in the primary reducer, every server manages a model and has been started.", "quantifier": "every argument lists", "why_tests_cant": "all lengths", "anchors": ["machin/frame/helpers/servers.py: grad_server_helper"]}
{"id": "C110", "title": "Server accessors belong to the servers of the same index", "statement": "The helpers return one accessor per model, accessor i uses the ordered server of server i; the helper refuses a group that already has one of the servers.", "quantifier": "every number of models, every group", "why_tests_cant": "all numbers; names contain decimal indices", "anchors": ["machin/frame/helpers/servers.py: grad_server_helper, model_server_helper", "machin/parallel/server/param_server.py: __init__"]}
{"id": "C111", "title": "The gradient servers of A3C manage the configured models", "statement": "A3C.init_from_config creates gradient servers that manage a model built like the local actor and one built like the local critic.", "quantifier": "every model classes, arguments", "why_tests_cant": "all configurations; the tests mock the servers", "anchors": ["machin/frame/algorithms/a3c.py: init_from_config", "machin/frame/helpers/servers.py: grad_server_helper"]}
{"id": "C112", "title": "A gradient server follows its learning rate schedule", "statement": "Gradient number k is applied with the learning rate of the schedule after k steps; every gradient is pushed once with consecutive versions.", "quantifier": "every schedule, optimizer and gradients", "why_tests_cant": "all executions", "anchors": ["machin/parallel/server/param_server.py: manage_model, _task_reduce_grad"]}
{"id": "C113", "title": "A3C pushes the gradients of every pass", "statement": "One update pushes for each network the sum of the gradients of all its passes over the batch.", "quantifier": "every numbers of passes, batches, gradients", "why_tests_cant": "all numbers of passes; the server is mocked in tests", "anchors": ["machin/frame/algorithms/a3c.py: update", "machin/frame/algorithms/a2c.py: update"]}
{"id": "C114", "title": "Networks switched off in an A3C update are left alone", "statement": "update(update_policy=False) or update(update_value=False) pushes nothing new for the network that is switched off.", "quantifier": "every frame state, flags, passes", "why_tests_cant": "all histories of updates", "anchors": ["machin/frame/algorithms/a3c.py: update", "machin/parallel/server/param_server.py: push"]}
{"id": "C115", "title": "An A3C update leaves syncing as it was", "statement": "is_syncing after update has the value it had before.", "quantifier": "every frame state, batches, exceptions", "why_tests_cant": "failures in the middle of an update", "anchors": ["machin/frame/algorithms/a3c.py: update, set_sync"]}
{"id": "C116", "title": "The advantages of one episode come from one critic", "statement": "store_episode computes all values of an episode with the same critic parameters.", "quantifier": "every episode, parameter server answers", "why_tests_cant": "pushes of other processes between two criticize calls", "anchors": ["machin/frame/algorithms/a3c.py: _criticize", "machin/frame/algorithms/a2c.py: store_episode"]}
{"id": "C117", "title": "Parameters used by an A3C action", "statement": "While syncing an action uses the parameters the server answered with; with syncing off the parameters do not change, whatever the server has.", "quantifier": "every sequence of answers", "why_tests_cant": "all interleavings with other processes", "anchors": ["machin/frame/algorithms/a3c.py: act, set_sync, manual_sync"]}
{"id": "C118", "title": "Apex frameworks honour the options of their base class", "statement": "act functions of DQNApex and DDPGApex return what the base class returns for the same options.", "quantifier": "every option value, state and network", "why_tests_cant": "all option values; tests use the defaults", "anchors": ["machin/frame/algorithms/apex.py: act_discrete_with_noise", "machin/frame/algorithms/ddpg.py: act_discrete_with_noise"]}
{"id": "C119", "title": "Apex samplers pull before acting", "statement": "While syncing, act functions and criticize of DDPGApex use the newest parameters; an episode after manual_sync and set_sync(False) is played with one network.", "quantifier": "every frame, server answers, episode lengths", "why_tests_cant": "all interleavings with the learner", "anchors": ["machin/frame/algorithms/apex.py: DDPGApex, DQNApex act functions, criticize, manual_sync, set_sync"]}
{"id": "C120", "title": "Several Apex learners do not lose updates", "statement": "With any number of DistributedDataParallel learners pushing without pull_on_fail and samplers pulling, the accepted versions are exactly the pushes of the learner that pushed first, and when every learner has pushed k times the server is at round k or later.", "quantifier": "every interleaving, every number of learners and samplers", "why_tests_cant": "all schedules of several processes", "anchors": ["machin/frame/algorithms/apex.py: update, init_from_config", "machin/parallel/server/param_server.py: PushPullModelServerImpl"]}
{"id": "C121", "title": "A scheduler class alone is enough", "statement": "With lr_scheduler given and the scheduler arguments left at their default or None, every optimizer gets a scheduler without extra arguments.", "quantifier": "every algorithm", "why_tests_cant": "every framework; tests give the arguments", "anchors": ["machin/frame/algorithms/*.py: __init__"]}
{"id": "C122", "title": "Every optimizer gets its own scheduler arguments", "statement": "Optimizer i is scheduled with argument tuple i and keyword dictionary i.", "quantifier": "every algorithm, all arguments and lengths", "why_tests_cant": "all arguments", "anchors": ["machin/frame/algorithms/*.py: __init__", "machin/frame/algorithms/maddpg.py: __init__"]}
{"id": "C123", "title": "Every configuration key has an effect", "statement": "A key of the generated configuration sets the constructor parameter of its name.", "quantifier": "every configuration", "why_tests_cant": "all values; the ** catch-all parameter hides mistakes", "anchors": ["machin/frame/algorithms/apex.py: DDPGApex.generate_config, __init__, init_from_config"]}
{"id": "C124", "title": "Pools evaluate the submitted function on the submitted arguments", "statement": "Each of apply, apply_async, map, map_async, starmap and starmap_async of Pool and CtxPool makes the workers evaluate the submitted function on the submitted arguments, with the worker's context first for CtxPool.", "quantifier": "every function, arguments, keyword arguments, iterables", "why_tests_cant": "all argument shapes", "anchors": ["machin/parallel/pool.py: proxy_caller, proxy_ctx_caller, proxy_dumper, Pool"]}
{"id": "C125", "title": "Callbacks are handed to the pool", "statement": "callback and error_callback given to a submission are those the pool calls.", "quantifier": "every submission", "why_tests_cant": "all submissions; tests never give callbacks to Pool.apply_async", "anchors": ["machin/parallel/pool.py: Pool.apply_async, map_async, starmap_async"]}
{"id": "C126", "title": "A dataset item is the episode that was played", "statement": "__next__ returns the transitions of one episode of the frame in the environment: a chain of states starting at the reset state, terminal exactly at the last step, with the infos and the sum of the rewards in the logs; every episode that ends is returned.", "quantifier": "every environment, frame, episode length", "why_tests_cant": "all lengths and environments", "anchors": ["machin/auto/envs/openai_gym.py: RLGymDiscActDataset.__next__, RLGymContActDataset.__next__", "machin/auto/dataset.py: DatasetResult"]}
{"id": "C127", "title": "Playing an episode leaves syncing as it was", "statement": "During __next__ a distributed frame does not sync, afterwards its syncing flag is as before.", "quantifier": "every environment, frame, exception", "why_tests_cant": "exceptions of environments and networks", "anchors": ["machin/auto/envs/openai_gym.py: __next__"]}
{"id": "C128", "title": "Every n-th episode is rendered", "statement": "Of consecutive episodes exactly those with a number divisible by render_every_episode have a video, with one picture per step.", "quantifier": "every n, every number of episodes", "why_tests_cant": "all numbers of episodes", "anchors": ["machin/auto/envs/openai_gym.py: __next__"]}
{"id": "C129", "title": "Stored actions can be used for training", "statement": "The action of a transition keeps its batch dimension, so that the transition is accepted and a batch of actions has one row per transition.", "quantifier": "every framework, action size", "why_tests_cant": "all frameworks and action sizes", "anchors": ["machin/auto/envs/openai_gym.py: __next__", "machin/frame/transition.py: Transition._check_validity"]}
{"id": "C130", "title": "Events of a training step", "statement": "training_step stores every episode of the batch, then updates once per transition, then reports its logs; the distributed version skips the updates in the first batch, reports the first sample only and ends with a barrier; an exception stops after a prefix of this.", "quantifier": "every batch, frame, exception", "why_tests_cant": "all batches and failures", "anchors": ["machin/auto/launcher.py: Launcher.training_step, DistributedLauncher.training_step"]}
{"id": "C131", "title": "Training steps work with on-policy frameworks", "statement": "training_step succeeds with A2C, PPO, GAIL and A3C.", "quantifier": "every batch", "why_tests_cant": "all episode lengths", "anchors": ["machin/auto/launcher.py: training_step", "machin/frame/algorithms/a2c.py: update"]}
{"id": "C132", "title": "Every logged value is reported once", "statement": "_log reports every value of every log once: (data, function) pairs to the function, everything else to the logger.", "quantifier": "every logs", "why_tests_cant": "all shapes of values", "anchors": ["machin/auto/launcher.py: _log"]}
{"id": "C133", "title": "Logged artifacts are never overwritten", "statement": "log_artifact copies the artifact to the first free name among path, path_1, path_2, ... (number before the extension), so that any sequence of calls keeps every file there was and every artifact; the search ends after at most as many rounds as there are files.", "quantifier": "every file system, artifact, destination, number of calls", "why_tests_cant": "file systems of any size, sequences of any length", "anchors": ["machin/auto/pl_logger.py: log_artifact, enumerate_till_valid"]}
{"id": "C134", "title": "Logged images are kept under their step", "statement": "log_image stores every image under its name and its step, or under a counter when no step is given, and no image replaces another.", "quantifier": "every sequence of names and steps", "why_tests_cant": "all interleavings of names and steps", "anchors": ["machin/auto/pl_logger.py: log_image"]}
{"id": "C135", "title": "Exactly the old trials are removed", "statement": "remove_trials_older_than removes the trials started earlier than the given difference before now, and nothing else.", "quantifier": "every directory, time, difference", "why_tests_cant": "all directory contents", "anchors": ["machin/utils/save_env.py: SaveEnv.remove_trials_older_than"]}
{"id": "C136", "title": "Clearing directories", "statement": "prep_clear_dirs removes everything inside the given directories except special files directly in them, and touches nothing outside, link targets included.", "quantifier": "every directory tree, list of directories", "why_tests_cant": "trees of any depth", "anchors": ["machin/utils/prepare.py: prep_clear_dirs"]}
{"id": "C137", "title": "Creating directories", "statement": "After prep_create_dirs every given path is a directory; nothing there before changes and only directories leading to the given ones are new.", "quantifier": "every directory tree, list of paths", "why_tests_cant": "trees of any depth", "anchors": ["machin/utils/prepare.py: prep_create_dirs"]}
{"id": "C138", "title": "Names in a config resolve to classes of the wanted kind", "statement": "assert_and_get_valid_models, _optimizer, _lr_scheduler return a class of the wanted kind for a class, a name in torch, a global name of a frame of the call stack or a dotted path, and raise ValueError for everything else.", "quantifier": "every argument, call stack, package table", "why_tests_cant": "all call stacks and names", "anchors": ["machin/frame/algorithms/utils.py: assert_and_get_valid_models, assert_and_get_valid_optimizer, assert_and_get_valid_lr_scheduler, assert_and_get_valid_criterion, get_globals_from_stack, safe_import"]}
{"id": "C139", "title": "Initialising from a config leaves the config alone", "statement": "init_from_config does not change the config, so several frameworks can be built from it.", "quantifier": "every algorithm, config", "why_tests_cant": "all configs and algorithms", "anchors": ["machin/frame/algorithms/ddpg.py: init_from_config", "machin/frame/algorithms/sac.py: init_from_config", "machin/frame/algorithms/ddpg_per.py: init_from_config"]}
{"id": "C140", "title": "Every accepted criterion can be used", "statement": "A loss class or a loss function given as criterion is used by the framework.", "quantifier": "every criterion, algorithm", "why_tests_cant": "all criteria", "anchors": ["machin/frame/algorithms/utils.py: assert_and_get_valid_criterion", "machin/frame/algorithms/dqn.py: init_from_config"]}
{"id": "C141", "title": "Every configured model is built", "statement": "init_from_config builds the i-th model from the i-th class and the i-th arguments, on the given device.", "quantifier": "every list of models and arguments", "why_tests_cant": "lists of any length", "anchors": ["machin/frame/algorithms/dqn.py: init_from_config", "machin/frame/algorithms/a2c.py: init_from_config"]}
{"id": "C142", "title": "Generated configs keep the given settings", "statement": "generate_training_config and generate_algorithm_config keep the settings of the given config.", "quantifier": "every config", "why_tests_cant": "all configs", "anchors": ["machin/auto/config.py: generate_training_config, generate_algorithm_config"]}
{"id": "C143", "title": "Valid names give a config", "statement": "generate_algorithm_config and generate_env_config give a config for every available algorithm and environment and ValueError for every other name.", "quantifier": "every name, namespace", "why_tests_cant": "all namespaces", "anchors": ["machin/auto/config.py: get_available_algorithms, generate_algorithm_config, generate_env_config"]}
{"id": "C144", "title": "Only complete configs are launched", "statement": "launch hands a config with all keys to its environment and raises AssertionError if a key is missing, ValueError for an unknown environment.", "quantifier": "every config, namespace", "why_tests_cant": "all configs", "anchors": ["machin/auto/config.py: launch, assert_training_config_complete, assert_algorithm_config_complete, assert_env_config_complete"]}
{"id": "C145", "title": "Every buffer class can be constructed", "statement": "Each of the eight buffer classes has arguments with which its constructor returns an object.", "quantifier": "every class, positional and keyword arguments", "why_tests_cant": "all argument lists through the cooperative constructors", "anchors": ["machin/frame/buffers/buffer.py: Buffer.__init__", "machin/frame/buffers/buffer_d.py: DistributedBuffer.__init__", "machin/frame/buffers/prioritized_buffer.py: PrioritizedBuffer.__init__", "machin/frame/buffers/prioritized_buffer_d.py: DistributedPrioritizedBuffer.__init__", "machin/frame/buffers/rnn_buffers.py: RNNBuffer.__init__, RNNDistributedBuffer.__init__, RNNPrioritizedBuffer.__init__, RNNDistributedPrioritizedBuffer.__init__"]}
{"id": "C146", "title": "Constructors of the remaining buffers", "statement": "Buffer, DistributedBuffer, PrioritizedBuffer, DistributedPrioritizedBuffer and RNNBuffer accept exactly the arguments of their signatures, create one storage with the given size and device, or the given one, and set every attribute from its argument or default, positional or keyword alike.", "quantifier": "every positional and keyword argument list", "why_tests_cant": "all argument lists", "anchors": ["machin/frame/buffers/buffer.py: Buffer.__init__", "machin/frame/buffers/buffer_d.py: DistributedBuffer.__init__", "machin/frame/buffers/prioritized_buffer.py: PrioritizedBuffer.__init__", "machin/frame/buffers/prioritized_buffer_d.py: DistributedPrioritizedBuffer.__init__", "machin/frame/buffers/rnn_buffers.py: RNNBuffer.__init__, RNNDistributedBuffer.__init__, RNNPrioritizedBuffer.__init__, RNNDistributedPrioritizedBuffer.__init__"]}
{"id": "C147", "title": "Failed processes are reported by spawn", "statement": "DDPSpawnPlugin._spawn raises if a spawned process fails.", "quantifier": "every number of processes, every interleaving of their ends, failures and the parent", "why_tests_cant": "all interleavings of any number of processes", "anchors": ["machin/auto/pl_plugin.py: DDPSpawnPlugin._spawn"]}
{"id": "C148", "title": "Device properties of modules", "statement": "input_device and output_device give the device set, else the one device of all parameters of the input or output module, and raise in all other cases.", "quantifier": "every module tree, every assignment of parameters to devices", "why_tests_cant": "trees of any depth", "anchors": ["machin/model/nets/base.py: NeuralNetworkModule.input_device, output_device, find_child"]}
{"id": "C149", "title": "Accepted input and output modules give a device", "statement": "A module accepted by set_input_module or set_output_module gives the network an input or output device.", "quantifier": "every module tree", "why_tests_cant": "trees of any depth", "anchors": ["machin/model/nets/base.py: NeuralNetworkModule.set_input_module, set_output_module"]}
{"id": "C150", "title": "Wrappers give modules their devices", "statement": "dynamic_module_wrapper adds the device properties and keeps the module, static_module_wrapper uses exactly the given devices.", "quantifier": "every module, devices", "why_tests_cant": "all module trees", "anchors": ["machin/model/nets/base.py: dynamic_module_wrapper, static_module_wrapper"]}
{"id": "C151", "title": "Shapes in residual blocks", "statement": "In every residual block both paths have expansion * planes channels and sides divided by the stride, rounded up, and a layer of any number of blocks fits together.", "quantifier": "every kind of block, norm, planes, stride, image size, number of blocks", "why_tests_cant": "all sizes and depths", "anchors": ["machin/model/nets/resnet.py: BasicBlock, Bottleneck, BasicBlockWN, BottleneckWN, ResNet._make_layer"]}
{"id": "C152", "title": "ResNet gives out_planes features", "statement": "A ResNet of depth 18, 34, 50, 101 or 152 with pool sizes from 1 to 7 maps every 224 x 224 image with in_planes planes to out_planes features.", "quantifier": "every depth, pool size, norm, number of planes", "why_tests_cant": "all configurations", "anchors": ["machin/model/nets/resnet.py: cfg, ResNet.__init__, ResNet.forward"]}
{"id": "C153", "title": "Images are converted faithfully", "statement": "Integer images with values 0 to 255 keep their values, float images with values 0 to 1 are scaled to 0 to 255 and rounded down, grey images get three equal channels; nothing outside 0 to 255 is ever produced and videos keep number and order of their frames.", "quantifier": "every image size, pixel values, number of frames", "why_tests_cant": "all sizes and values", "anchors": ["machin/utils/media.py: create_video, numpy_array_to_pil_image"]}
{"id": "C154", "title": "Creating a video leaves the frames alone", "statement": "create_video does not change the list of frames it is given.", "quantifier": "every list of frames", "why_tests_cant": "all lists of frames", "anchors": ["machin/utils/media.py: create_video"]}
{"id": "C155", "title": "Logging a video ends and removes its file", "statement": "log_video gives the video once to every logger that takes artifacts, removes the temporary file and returns.", "quantifier": "every list of loggers, history of file sizes", "why_tests_cant": "all file size histories and logger lists", "anchors": ["machin/auto/dataset.py: log_video"]}
{"id": "C156", "title": "The precision of the models is determined", "statement": "determine_precision returns the type common to all parameters and raises RuntimeError if there is none.", "quantifier": "every list of models and parameter types", "why_tests_cant": "all lists", "anchors": ["machin/auto/dataset.py: determine_precision"]}
{"id": "C157", "title": "Training processes join the requested world", "statement": "init_ddp_connection creates one world with the given rank and size, or those of the cluster environment, at the master's address and the next port, and refuses incomplete environments.", "quantifier": "every environment, rank, world size", "why_tests_cant": "all environments", "anchors": ["machin/auto/pl_plugin.py: assert_world_config, DDPPlugin.init_ddp_connection, DDPSpawnPlugin.init_ddp_connection"]}
{"id": "C158", "title": "update() trains each network with its own loss only", "statement": "Whatever gradients were left in the networks, update() never raises a stale-graph error, makes exactly the optimizer steps asked for by its flags and update times, each with exactly the clipped gradient of that network's own loss (the temperature of SAC is not clipped), updates exactly the due target networks and changes no other parameters.", "quantifier": "every framework (DQN in all modes, DQNPer, RAINBOW, DDPG, HDDPG, DDPGPer, TD3, SAC, A2C, PPO, TRPO, IMPALA), all flags, update times and starting states", "why_tests_cant": "Leftover gradients show up as slightly different training, not as errors; a test checks few flag combinations from a clean state.", "anchors": ["machin/frame/algorithms/dqn.py: update", "machin/frame/algorithms/ddpg.py: update", "machin/frame/algorithms/td3.py: update", "machin/frame/algorithms/sac.py: update", "machin/frame/algorithms/a2c.py: update", "machin/frame/algorithms/ppo.py: update", "machin/frame/algorithms/trpo.py: update", "machin/frame/algorithms/impala.py: update"]}
{"id": "C159", "title": "update() leaves evaluation mode and an empty on-policy buffer", "statement": "After update() all networks of the framework are in evaluation mode, and the replay buffer of the on-policy frameworks is empty.", "quantifier": "every framework, all flags, update times and starting states", "why_tests_cant": "Only a zero policy gradient (for example constant rewards) takes the early return.", "anchors": ["machin/frame/algorithms/trpo.py: update", "machin/frame/algorithms/a2c.py: update", "machin/frame/algorithms/ppo.py: update"]}
{"id": "C160", "title": "MADDPG jobs do not disturb each other", "statement": "Under every interleaving of the jobs of MADDPG.update each optimizer step uses exactly the clipped gradient of its own loss.", "quantifier": "every number of agents, ensemble size, flags, schedule and starting state", "why_tests_cant": "The interleaving of the pool is up to the operating system.", "anchors": ["machin/frame/algorithms/maddpg.py: update, _update_sub_policy"]}
{"id": "C161", "title": "set_backward_function is used for every loss", "statement": "After set_backward_function(f) every loss of update() is propagated by f.", "quantifier": "every framework, all flags, update times and starting states", "why_tests_cant": "The default function behaves like loss.backward(), so the difference shows only with automatic mixed precision or a similar plugin.", "anchors": ["machin/frame/algorithms/base.py: set_backward_function", "machin/frame/algorithms/dqn.py: update", "machin/frame/algorithms/td3.py: update", "machin/frame/algorithms/sac.py: update", "machin/frame/algorithms/gail.py: update"]}
{"id": "C162", "title": "MADDPG value targets use the target policies", "statement": "The regression target of an agent's critic is the reward, plus for a non-terminal transition the discounted value by the target critic of the visible agents' next states and of the actions of their target policies there.", "quantifier": "all networks, visible sets, sub-policy choices, agents and batches", "why_tests_cant": "Right after the target networks were copied both policies agree, and later the difference only changes the values.", "anchors": ["machin/frame/algorithms/maddpg.py: update, act, _update_sub_policy"]}
{"id": "C163", "title": "MADDPG improves the policy at the current state", "statement": "The policy loss of an agent evaluates its critic at the visible current states and recorded actions with the agent's own action replaced by its policy's action at its current state.", "quantifier": "all networks, visible sets, agents, sub-policies and batches", "why_tests_cant": "The shapes agree; training with the next state often still works a little.", "anchors": ["machin/frame/algorithms/maddpg.py: _update_sub_policy"]}
{"id": "C164", "title": "Malformed arguments are refused with a definite exception", "statement": "Each modelled operation that gets an argument of the wrong shape, length or kind raises the exception of that fault and no other, and what it changed before raising is exactly what the code had already assigned: parameters before the first mismatch for soft updates, the given optimizers for MADDPG, nothing for empty episodes, unusable actions, unequal gradients, incomplete IMPALA batches, missing environments, missing ranks and empty load maps.", "quantifier": "all arguments of soft_update, the optimizers setter, gradient reduction, the RAINBOW projection, im_targets, the action choice of the gym data sets, environment calls, DDP initialisation, model loading, ResNet.forward and the filter round of ARS", "why_tests_cant": "Tests of error paths use one bad argument each; the type of the exception and the state left behind depend on where the fault sits among the valid elements.", "anchors": ["machin/frame/algorithms/utils.py: soft_update", "machin/frame/algorithms/maddpg.py: optimizers", "machin/parallel/server/param_server.py: _reduce_batch", "machin/frame/algorithms/rainbow.py: update", "machin/frame/algorithms/impala.py: update", "machin/auto/envs/openai_gym.py: __next__", "machin/env/wrappers/openai_gym.py: _call_gym_env_method", "machin/model/nets/resnet.py: forward", "machin/frame/algorithms/ars.py: _sync_filter"]}
{"id": "C165", "title": "IMPALA draws whole episodes", "statement": "After any sequence of stores, IMPALABuffer.sample_method_episode returns min(number of retained episodes, requested number) episodes; every one of them is a complete retained episode with its steps in order, so the episode lengths recorded by IMPALA.store_episode always add up to the number of sampled steps and update() never meets a torn episode; also after clear().", "quantifier": "all capacities, episode histories (accepted or refused), requested sizes and outcomes of random.choices, including repeated episodes", "why_tests_cant": "A torn episode only appears for particular combinations of episode lengths, capacity and write position when the ring wraps around.", "anchors": ["machin/frame/algorithms/impala.py: IMPALABuffer.sample_method_episode", "machin/frame/algorithms/impala.py: IMPALA.update", "machin/frame/buffers/buffer.py: store_episode"]}
{"id": "C166", "title": "Scripted MADDPG actors get the arguments of their signature", "statement": "MADDPG._jit_safe_call hands every parameter of the forward method the last value stored under its name, ignores other keys, reports missing mandatory arguments with RuntimeError, and leaves all other parameters to their default values.", "quantifier": "all signatures (positional, default, *args, keyword-only, **kwargs) and all lists of dictionaries", "why_tests_cant": "The tests only script actors whose parameters are all mandatory and all present.", "anchors": ["machin/frame/algorithms/maddpg.py: _jit_safe_call"]}
{"id": "C167", "title": "Batches in shared memory keep their values", "statement": "MADDPG._move_to_shared_mem returns the nested batch with every tensor detached and in shared memory and every other value unchanged, at the same place.", "quantifier": "all nested lists, tuples and dictionaries of tensors and other values, of any depth", "why_tests_cant": "The pool of the tests is mostly a thread pool, and the batches contain tensors only; custom attributes of transitions are not checked after the move.", "anchors": ["machin/frame/algorithms/maddpg.py: _move_to_shared_mem", "machin/frame/algorithms/maddpg.py: update"]}
{"id": "C168", "title": "MADDPG accepts exactly models on one kind of device", "statement": "MADDPG._check_parameters_device returns the device type shared by all parameters of all models, raises RuntimeError exactly if two parameters are on different device types, and fails with IndexError exactly if there are no parameters at all.", "quantifier": "all lists of models with any number of parameters on any device types", "why_tests_cant": "Needs several kinds of devices in one machine, and the position of the odd parameter matters for an early exit.", "anchors": ["machin/frame/algorithms/maddpg.py: _check_parameters_device"]}
{"id": "C169", "title": "ARS actor names select the right actor and reward list", "statement": "ARS.act uses the base actor for \"original\" and otherwise exactly the perturbed actor which the name denotes; store_reward appends the reward to the list of the rollout and sign which the name denotes. Names denoting nothing raise ValueError (for store_reward also \"original\"), names of rollouts of other workers KeyError, and a refused call changes nothing.", "quantifier": "all names over ASCII (any white space, sign, leading zeros and trailing parts), all actor tables, all sequences of store_reward calls", "why_tests_cant": "Names are parsed with startswith, split and int; tests only use the canonical names returned by get_actor_types.", "anchors": ["machin/frame/algorithms/ars.py: act", "machin/frame/algorithms/ars.py: store_reward", "machin/frame/algorithms/ars.py: get_actor_types"]}
{"id": "C170", "title": "ARS perturbs actors symmetrically with the recorded noise", "statement": "For every local rollout _generate_parameter creates a positive actor with parameters p + d and a negative one with p - d, where d is the piece of the shared noise array at the index recorded in delta_idx for that rollout and parameter; get_actor_types lists exactly these actors. A parameter larger than the noise array raises ValueError.", "quantifier": "all noise arrays, parameter lists, worker numbers, rollout numbers and outcomes of the samplers", "why_tests_cant": "The recorded index is only used by another process in update(); a mismatch changes the gradient but raises no error.", "anchors": ["machin/frame/algorithms/ars.py: _generate_parameter", "machin/frame/algorithms/ars.py: SharedNoiseSampler", "machin/frame/algorithms/ars.py: get_actor_types"]}
{"id": "C171", "title": "A terminated pool is quiet and leaves nobody waiting", "statement": "After terminate() the handler threads stop at their next look at the state, all workers are dead once they were killed and are never replaced, no job is accepted any more (ValueError), results which are there stay, and nobody waits for ever for a job that was pending.", "quantifier": "all reachable and unreachable pool states, all job kinds, all interleavings of callers, handlers, workers and crashes after terminate()", "why_tests_cant": "Termination races with handlers, workers and callers; the tests terminate idle pools only.", "anchors": ["machin/parallel/pool.py: Pool", "machin/parallel/pool.py: _terminate_pool"]}
{"id": "C172", "title": "A SimpleQueue delivers every object once, intact and in order", "statement": "If quick_put is used by at most one process and never beside put, and quick_get by at most one process and never beside get (the documented discipline), then the objects received are always a prefix of the objects sent, in the order in which they were sent; when no operation is going on, the rest is in the pipe as whole messages and the next get or quick_get returns the next object.", "quantifier": "all numbers of processes, message lengths, interleavings of single writes and reads of the pipe, time-outs, and for the prefix property also crashes of processes at any point", "why_tests_cant": "A torn message needs a particular interleaving of partial pipe writes of several processes.", "anchors": ["machin/parallel/queue.py: SimpleQueue", "machin/parallel/queue.py: ConnectionWrapper"]}
{"id": "C173", "title": "A dead process does not block a SimpleQueue", "statement": "When a process using a SimpleQueue dies, the other processes can go on sending and receiving.", "quantifier": "all interleavings, all points of death", "why_tests_cant": "Needs a process dying inside the few instructions between acquire and release of a shared lock.", "anchors": ["machin/parallel/queue.py: SimpleQueue"]}
{"id": "C174", "title": "get(timeout) of a SimpleQueue ends", "statement": "get with a time limit on an empty queue ends with TimeoutError when the time is over, takes nothing and releases the lock.", "quantifier": "all states and interleavings", "why_tests_cant": "The time limit is only tested with a single reader.", "anchors": ["machin/parallel/queue.py: SimpleQueue"]}
{"id": "C175", "title": "TRPO's Fisher-vector product is the curvature of the KL divergence", "statement": "_fvp_fim returns (J^T diag(M) J / batch + damping I) v for the Jacobian J of the actor's output; this is symmetric and at least damping times the identity; and v times the undamped product is twice the mean KL divergence caused by the parameter change v, to second order, for all parameters of the actor.", "quantifier": "all Jacobians, numbers of parameters, batch sizes, metrics M, vectors and damping factors; for Gaussian policies all means and standard deviations", "why_tests_cant": "A wrong factor, a missing division by the batch size or a missing block only changes the step direction and the step size; training still works somehow.", "anchors": ["machin/frame/algorithms/trpo.py: _fvp_fim", "machin/frame/algorithms/trpo.py: get_flat_grad", "machin/model/algorithms/trpo.py: ActorContinuous"]}
{"id": "C176", "title": "TRPO's full step exhausts the trust region", "statement": "For every non-zero search direction the argument of the square root of the step size is positive, and the full step s satisfies s F s = 2 kl_max_delta up to the relative error of the square root, so that the undamped quadratic model of the KL divergence is at most kl_max_delta.", "quantifier": "all Jacobians, metrics with non-negative entries, positive damping factors, trust regions, directions and errors of the square root", "why_tests_cant": "The step size is only checked indirectly through rewards.", "anchors": ["machin/frame/algorithms/trpo.py: update", "machin/frame/algorithms/trpo.py: _fvp_fim"]}
{"id": "C177", "title": "Settings from the command line", "statement": "load_config_cmd gives every setting name=expression the value of its expression, the last setting of a name counts, and keeps all other settings of the given configuration.", "quantifier": "all sequences of settings, all configurations, every evaluation of expressions", "why_tests_cant": "Only two simple settings are tested; the failure depends on the characters of the expression.", "anchors": ["machin/utils/conf.py: load_config_cmd", "machin/utils/conf.py: merge_config"]}
{"id": "C178", "title": "A saved configuration is restored by loading it", "statement": "After save_config, load_config_file returns a configuration with the same value at every path of keys, merged over the configuration given; other files are unchanged; a failing save_config leaves the old file.", "quantifier": "all configurations of any depth, all files, all merged configurations", "why_tests_cant": "Tests save flat configurations with harmless keys; the state of the file after a failed save is never looked at.", "anchors": ["machin/utils/conf.py: save_config", "machin/utils/conf.py: load_config_file"]}
{"id": "C179", "title": "The default hooks of check_model", "statement": "A value that is due and contains a nan ends the pass with CheckError before it is recorded; of every other tensor that is due minimum, maximum and mean are recorded with the number of the pass; values that are not due are not looked at; nothing else makes a pass fail.", "quantifier": "all numbers of passes, orders of hook calls, tensors, intervals", "why_tests_cant": "The tests check one small floating point network and look at no recorded value.", "anchors": ["machin/utils/checker.py: check_nan", "machin/utils/checker.py: i_chk_range", "machin/utils/checker.py: o_chk_range", "machin/utils/checker.py: p_chk_range", "machin/utils/checker.py: check_model"]}
{"id": "C180", "title": "Interval of the parameter checks", "statement": "Parameters are checked once every param_check_interval backward passes.", "quantifier": "all programs of calls of the model and backward passes, all intervals", "why_tests_cant": "The interval is never varied in a test, and calls and backward passes alternate.", "anchors": ["machin/utils/checker.py: check_model", "machin/utils/checker.py: _add_param_check_hook"]}
{"id": "C181", "title": "Estimated size of a model", "statement": "estimate_size() is the multiplier times the memory of all parameters and buffers, in units of 1024*1024 bytes.", "quantifier": "all numbers, shapes and element types of parameters and buffers, all multipliers", "why_tests_cant": "Tests use float32 only.", "anchors": ["machin/parallel/assigner.py: ModelSizeEstimator"]}
{"id": "C182", "title": "Relative ranks in a collective group", "statement": "current_rank of a group created by create_collective_group is the number of members with a smaller rank, in whatever order the ranks are given, and None outside the group; the members are numbered 0, 1, ... without gaps and repetitions.", "quantifier": "all lists of ranks, all processes", "why_tests_cant": "Tests create one group of three processes with ordered ranks.", "anchors": ["machin/parallel/distributed/_world.py: World.create_collective_group"]}
{"id": "C183", "title": "CollectiveGroup.irecv reports the source", "statement": "wait() of irecv returns the global rank of the member whose message was received, also without a given source; for every pair of members and tag the messages arrive in the order sent, none lost or repeated; ranks outside the group as source raise; processes outside the group get -1 and receive nothing.", "quantifier": "all groups, all sequences of sends and receives of all processes, all choices among waiting messages", "why_tests_cant": "The order of messages from several senders depends on timing; relative and global ranks agree in the tested group.", "anchors": ["machin/parallel/distributed/_world.py: CollectiveGroup.irecv", "machin/parallel/distributed/_world.py: CollectiveGroup.send"]}
{"id": "C184", "title": "Assigning optimizers", "statement": "After `framework.optimizers = l` with as many optimizers as the framework has, the property returns l, and every later update steps the i-th new optimizer wherever it would have stepped the i-th old one.", "quantifier": "all single-agent frameworks and GAIL, all previous assignments, all flags and iteration counts of update()", "why_tests_cant": "Tests read the property; the setter is used by the Lightning wrapper only, which is not run with update().", "anchors": ["machin/frame/algorithms/base.py: Framework.optimizers", "machin/frame/algorithms/gail.py: GAIL.optimizers", "machin/frame/algorithms/dqn.py: DQN.optimizers", "machin/frame/algorithms/td3.py: TD3.optimizers"]}
{"id": "C185", "title": "Schedulers reported and stepped", "statement": "update_lr_scheduler() steps exactly the schedulers that the property lr_schedulers returns, one per optimizer, each once.", "quantifier": "all frameworks, with and without schedulers, GAIL with any combination", "why_tests_cant": "Tests call update_lr_scheduler() once and look for exceptions only.", "anchors": ["machin/frame/algorithms/sac.py: SAC.update_lr_scheduler", "machin/frame/algorithms/sac.py: SAC.lr_schedulers", "machin/frame/algorithms/td3.py: TD3.update_lr_scheduler", "machin/frame/algorithms/gail.py: GAIL.update_lr_scheduler"]}
{"id": "C186", "title": "all_clear while the members work", "statement": "When all_clear() has returned, every transition in any member's buffer was stored after the call had been made; and a buffer is changed by nothing but its own member and calls of all_clear.", "quantifier": "all groups, all interleavings of constructors, stores, clears and calls of all members, all capacities and episodes", "why_tests_cant": "The members' stores and the clear services interleave; the tests separate them by sleeping.", "anchors": ["machin/frame/buffers/buffer_d.py: DistributedBuffer.all_clear", "machin/frame/buffers/prioritized_buffer_d.py: DistributedPrioritizedBuffer.all_clear"]}
{"id": "C187", "title": "all_size while the members work", "statement": "all_size() is the number of transitions in all buffers at some moment of the call.", "quantifier": "all groups, all interleavings of constructors, stores, clears and calls of all members, all capacities and episodes", "why_tests_cant": "The members answer at different times; tests call it when nobody stores.", "anchors": ["machin/frame/buffers/buffer_d.py: DistributedBuffer.all_size", "machin/frame/buffers/prioritized_buffer_d.py: DistributedPrioritizedBuffer.all_size"]}
{"id": "C188", "title": "Calls on a constructed distributed buffer", "statement": "all_clear() and all_size() of a member that has constructed its buffer do not raise, and do nothing if they raise.", "quantifier": "all groups, all interleavings of constructors, stores, clears and calls of all members", "why_tests_cant": "Tests wait until all members are constructed.", "anchors": ["machin/frame/buffers/buffer_d.py: DistributedBuffer.__init__", "machin/frame/buffers/buffer_d.py: DistributedBuffer.all_clear", "machin/frame/buffers/prioritized_buffer_d.py: DistributedPrioritizedBuffer.__init__"]}
{"id": "C189", "title": "Weights of transitions stored without priorities", "statement": "The transitions of an episode stored without priorities all get the same weight, every other transition keeps its weight, and no weight in the buffer is larger than the new one.", "quantifier": "all reachable local and distributed prioritized buffers, all episodes, all positive normalizations of priorities", "why_tests_cant": "Tests look at weights after one store into an empty buffer; the order of weights depends on the history of priorities.", "anchors": ["machin/frame/buffers/prioritized_buffer.py: PrioritizedBuffer.store_episode", "machin/frame/buffers/prioritized_buffer_d.py: DistributedPrioritizedBuffer.store_episode"]}
{"id": "C190", "title": "Size of a distributed prioritized sample taken while the members work", "statement": "A distributed prioritized sample of n transitions returns at least n and fewer than n + p transitions, p being the number of members, if the priorities of all members together exceed n * 1e-6, also when members store, clear and update while the sample is collected.", "quantifier": "all interleavings of stores, clears, updates and any number of sample_batch calls of all members, all sizes", "why_tests_cant": "The weights are collected first and the samples later; tests cannot enumerate what happens between the two rounds of calls.", "anchors": ["machin/frame/buffers/prioritized_buffer_d.py: DistributedPrioritizedBuffer.sample_batch, _sample_service, _weight_sum_service"]}
{"id": "C191", "title": "Distributed samples are consistent under concurrency", "statement": "Every transition returned by a distributed prioritized sample, with its member, position and version, was stored at that position of that member with that version at the moment the member answered, which lies within the call; there is one moment per member, and the lists returned have the returned length.", "quantifier": "all interleavings of stores, clears, updates and any number of sample_batch calls of all members, all sizes", "why_tests_cant": "A race between samplers and writers: the set of interleavings is unbounded.", "anchors": ["machin/frame/buffers/prioritized_buffer_d.py: DistributedPrioritizedBuffer.sample_batch, _sample_service"]}
{"id": "C192", "title": "Both Fisher-vector products of TRPO are equal", "statement": "The Fisher-vector products computed by hv_mode 'fim' and hv_mode 'direct' are the same vector.", "quantifier": "all continuous and discrete actors, batches, dampings and vectors", "why_tests_cant": "Tests run both modes for convergence only and compare no vectors; equality concerns all networks and vectors.", "anchors": ["machin/frame/algorithms/trpo.py: TRPO._fvp_direct, _fvp_fim", "machin/model/algorithms/trpo.py: ActorDiscrete.get_kl, get_fim", "machin/model/algorithms/trpo.py: ActorContinuous.get_kl, get_fim"]}
{"id": "C193", "title": "terminate() of a thread pool", "statement": "terminate() of a thread pool returns as soon as the running tasks have returned, and no task begins after it was called.", "quantifier": "all numbers of workers, task limits, submissions and interleavings of workers and handler threads", "why_tests_cant": "Tests terminate idle pools; what waiting tasks do depends on the interleaving and is not observable from results.", "anchors": ["machin/parallel/pool.py: ThreadPool", "machin/parallel/pool.py: BasePool._handle_workers, terminate, _finalize_pool"]}
{"id": "C194", "title": "A closed thread pool delivers everything and ends", "statement": "After close(), the threads of a thread pool end if all tasks return; when join() returns, every submitted task was executed exactly once, in the order of submission, and its result was set exactly once.", "quantifier": "all numbers of workers, task limits, submissions, failing initializers and interleavings of workers and handler threads", "why_tests_cant": "Retiring workers, their replacement and the end of the two handler threads interleave in unboundedly many ways.", "anchors": ["machin/parallel/pool.py: ThreadPool", "machin/parallel/pool.py: BasePool._handle_workers, _handle_results, worker, join"]}
{"id": "C195", "title": "ARS processes keep the same actor", "statement": "In every execution of the constructor and any number of updates of all processes of an ARS group, no exchange raises (no missing or doubly paired name, no failed push or pull), and while any process is between its updates u - 1 and u every process holds the same actor: the manager's first one changed by u updates, each made from the results which all processes brought to that update. The filters agree with the manager's after every update. No execution ends in a deadlock.", "quantifier": "all numbers of processes and updates, with and without state normalisation, all interleavings of the single remote operations, all gradient and filter computations, all rollout results", "why_tests_cant": "Whether names are paired, read and released in time depends on the interleaving of the processes around eight barriers per update; tests see a few schedules of three processes.", "anchors": ["machin/frame/algorithms/ars.py: ARS.update, _sync_filter, _sync_actor"]}
{"id": "C196", "title": "Gradient server publishes every optimization step", "statement": "With a model managed from the beginning, a pull from the gradient server always gives the parameters after all optimizer steps applied so far, one step per reduction of the primary reducer in their order, together with the number of these steps as version (nothing before the first one); the primary never reduces a second batch before having published the first, and what is published is never taken back. A model managed again after n publications restarts at version 0, so its first n results are refused by the ordered server without notice and pulls keep giving the old parameters.", "quantifier": "for all reduction methods, batch and queue sizes, optimizers, numbers of processes, pushed gradients and interleavings of the threads", "why_tests_cant": "Publication depends on the interleaving of reducer threads in several processes and on the number of earlier publications.", "anchors": ["machin/parallel/server/param_server.py:187-206", "machin/parallel/server/param_server.py:367-396", "machin/parallel/server/param_server.py:409-450"]}
{"id": "C197", "title": "Stopping and restarting the gradient server", "statement": "stop() makes the reducing thread end after finishing the complete batches it has, and after a later start() the gradients pushed to the process are reduced again.", "quantifier": "for all batch and queue sizes, pushed gradients, interleavings and later calls", "why_tests_cant": "Termination of the thread depends on the contents of both queues when stop() is called, and the restart on every later schedule.", "anchors": ["machin/parallel/server/param_server.py:345-362", "machin/parallel/server/param_server.py:409-465"]}
{"id": "C198", "title": "A stored transition is independent of its caller", "statement": "Constructing a transition keeps its tensors in the memory of the caller, removes them from any graph and changes nothing the caller sees; storing it puts a copy into the storage which shows the same values with all major and sub attributes on the storage's device. Whatever the caller does afterwards to tensors, dictionaries and transitions of their own, also those shared between several transitions, the stored copy keeps showing these values. Storing is refused with a runtime error exactly when a tensor still hangs in a graph, which after construction can only be a custom attribute.", "quantifier": "for all heaps with arbitrary sharing between tensors, dictionaries and transitions, all devices and all later operations of the caller", "why_tests_cant": "The sharing between attributes, between transitions and with the caller can take any shape, and so can the later writes.", "anchors": ["machin/frame/buffers/storage.py:97-99", "machin/frame/transition.py:45-62", "machin/frame/transition.py:130-169"]}
{"id": "C199", "title": "A store refused in the middle leaves the buffer as it was", "statement": "When a transition of an episode cannot be copied, store_episode raises and the buffer samples the same transitions as before.", "quantifier": "for all capacities, histories of stored episodes, episodes and positions of the transition that cannot be copied", "why_tests_cant": "The damage depends on the position reached in the ring and on how many transitions precede the failing one.", "anchors": ["machin/frame/buffers/storage.py:97-114", "machin/frame/buffers/buffer.py:46-109"]}
{"id": "C200", "title": "Writing into a sample does not change the buffer", "statement": "sample_batch changes nothing that is stored, and whatever the caller writes in place into the tensors of the returned batch, every stored transition keeps showing the same values.", "quantifier": "for all heaps with arbitrary sharing, batches, selected attributes, devices, and writes of the caller", "why_tests_cant": "Sharing between sample and storage depends on devices, on concatenation and on the selected attributes; a test sees only the writes it makes.", "anchors": ["machin/frame/buffers/buffer.py:261-353", "machin/frame/buffers/buffer.py:380-413"]}
{"id": "C201", "title": "A sampled batch is on the requested device", "statement": "All tensors of a batch returned by sample_batch are on the device given as argument.", "quantifier": "for all heaps, batches, selected attributes, devices and both values of concatenate", "why_tests_cant": "Needs two devices, and every combination of attribute kind and concatenation.", "anchors": ["machin/frame/buffers/buffer.py:261-353", "machin/frame/buffers/buffer.py:380-413"]}
{"id": "C202", "title": "Keys paired through any object of a group can be used", "statement": "After pair or register has succeeded through an RpcGroup object, the value can be fetched and the service called through every object of that group, on every process.", "quantifier": "for all states of the world (lookup tables, published groups, objects and calls in progress), groups, processes, keys and values", "why_tests_cant": "Group objects arrive in other processes by pickling; a test that pairs through the object returned by create_rpc_group never sees the others.", "anchors": ["machin/parallel/distributed/_world.py:100-163", "machin/parallel/distributed/_world.py:632-734", "machin/parallel/distributed/_world.py:950-977"]}
{"id": "C203", "title": "An update without samples leaves the networks in evaluation mode", "statement": "When update() is called while the replay buffer is empty, it leaves parameters, gradients, target networks and the training mode of every network as they were.", "quantifier": "for all frameworks with one process (DQN in all modes, DQNPer, RAINBOW, DDPG, HDDPG, DDPGPer, TD3, SAC, A2C, PPO, TRPO, IMPALA, GAIL), update flags, numbers of passes, and prior states", "why_tests_cant": "The exception hides the state left behind; acting afterwards with dropout or batch normalisation in training mode gives no error.", "anchors": ["machin/frame/algorithms/dqn.py:333-474", "machin/frame/algorithms/ddpg.py:378-466", "machin/frame/algorithms/a2c.py:328-422", "machin/frame/algorithms/gail.py:247-318", "machin/frame/buffers/buffer.py:261-276"]}
{"id": "C204", "title": "update() returns for all numbers of passes", "statement": "After training, update() of the on-policy frameworks returns the mean losses, for all accepted actor_update_times, critic_update_times and discriminator_update_times.", "quantifier": "for all frameworks with one process, update flags, numbers of passes including 0, and prior states with a non-empty buffer", "why_tests_cant": "The defaults are positive; the constructors accept 0 to switch a part off.", "anchors": ["machin/frame/algorithms/a2c.py:416-422", "machin/frame/algorithms/ppo.py:208-214", "machin/frame/algorithms/trpo.py:295-301", "machin/frame/algorithms/gail.py:314-318"]}
{"id": "C205", "title": "A closed P2PPool completes the submitted jobs", "statement": "After close() of a P2PPool every job submitted before still gets its result, as the documentation of close() says (\"closed after all job is finished and all results returned\").", "quantifier": "for all states of the pool, jobs, and schedules of workers and handler threads after close()", "why_tests_cant": "Jobs that happen to be finished before close() hide the difference; it depends on the schedule.", "anchors": ["machin/parallel/pool.py:576-597", "machin/parallel/pool.py:1097-1130"]}
{"id": "C206", "title": "A restarted trial uses the directory named", "statement": "SaveEnv(root, restart_from_trial=name) uses the directory root/name, if it accepts the name.", "quantifier": "for all names, times of creation and current times (default time_format)", "why_tests_cant": "Names copied from a directory listing work; names typed by hand are accepted as well, and a fresh directory is silently used instead.", "anchors": ["machin/utils/save_env.py: SaveEnv.__init__", "machin/utils/save_env.py: SaveEnv.get_trial_root"]}
{"id": "C207", "title": "Every trial has its own directory", "statement": "Two trials created at different times in one root have different directories.", "quantifier": "for all pairs of times of creation", "why_tests_cant": "Tests create one environment at a time; several processes started together are created within one second.", "anchors": ["machin/utils/save_env.py: SaveEnv.__init__", "machin/utils/save_env.py: SaveEnv.get_trial_root"]}
{"id": "C208", "title": "Loading a state dictionary", "statement": "prep_load_state_dict accepts exactly the dictionaries with the names and shapes of the model; the model then has their contents, and every parameter stays on its device.", "quantifier": "for all models, state dictionaries, shapes and devices", "why_tests_cant": "Devices are not varied in tests; the set of refused dictionaries is infinite.", "anchors": ["machin/utils/prepare.py: prep_load_state_dict"]}
{"id": "C209", "title": "A state dictionary that does not fit changes nothing", "statement": "If prep_load_state_dict raises, the model is as it was.", "quantifier": "for all models and state dictionaries", "why_tests_cant": "Tests check the exception and not the model after it.", "anchors": ["machin/utils/prepare.py: prep_load_state_dict"]}
{"id": "C210", "title": "The check of probability tensors", "statement": "assert_output_is_probs accepts exactly the matrices all of whose rows are finite, not negative and differ from 1 in sum by less than 1e-5; everything else raises ValueError.", "quantifier": "for all tensors, infinities and nan included", "why_tests_cant": "Tests use a few wrong matrices; nan and infinities compare in unusual ways.", "anchors": ["machin/frame/algorithms/utils.py: assert_output_is_probs"]}
{"id": "C211", "title": "Greedy discrete actions", "statement": "If the output of the actor is accepted, act_discrete returns one action for every row; each is a column of the row with the largest probability, which is positive.", "quantifier": "for all accepted outputs and all choices among equal maxima", "why_tests_cant": "Needs all matrices; t.argmax may choose any of several maxima.", "anchors": ["machin/frame/algorithms/ddpg.py: DDPG.act_discrete", "machin/frame/algorithms/utils.py: assert_output_is_probs"]}
{"id": "C212", "title": "Tensors arrive with their values", "statement": "loads(dumps(obj, copy_tensor)) has as many tensors in the same places with the same contents, and two places hold the same tensor exactly when they did before.", "quantifier": "for all objects, storages, overlapping views and both modes", "why_tests_cant": "Tests send one tensor.", "anchors": ["machin/parallel/pickle.py: Pickler", "machin/parallel/pickle.py: _reduce_full", "machin/parallel/pickle.py: _rebuild_full", "machin/parallel/pickle.py: dumps"]}
{"id": "C213", "title": "Tensors that share memory still share it after being sent", "statement": "Two tensors of a sent object that share a storage share one after loads, so that a write to one is seen in the other.", "quantifier": "for all objects with several tensors and both modes", "why_tests_cant": "Tests send one tensor; views and tied parameters are not sent.", "anchors": ["machin/parallel/pickle.py: Pickler", "machin/parallel/pickle.py: _reduce_full", "machin/parallel/pickle.py: dumps"]}
{"id": "C214", "title": "Waiting for a video made by a process", "statement": "When the function returned by create_video_subproc or create_image_subproc returns, the file is complete and has the frames of the call, whatever the caller does with its frames in the meantime.", "quantifier": "for all frames, interleavings of caller and process, and frames that cannot be encoded", "why_tests_cant": "Tests encode good frames and look at the file only after the wait.", "anchors": ["machin/utils/media.py: create_video_subproc", "machin/utils/media.py: create_image_subproc"]}
{"id": "C215", "title": "A video is complete after the end of the program", "statement": "A program that creates a video by create_video_subproc and ends leaves a complete file.", "quantifier": "for all frames, both values of daemon and all interleavings", "why_tests_cant": "Tests wait before they end.", "anchors": ["machin/utils/media.py: create_video_subproc", "machin/utils/media.py: create_image_subproc"]}
{"id": "C216", "title": "Processes of a distributed training meet in their collective calls", "statement": "In a training with DistributedLauncher every process comes to the end of all its training steps.", "quantifier": "for all numbers of processes, batches, logs and monitored keys", "why_tests_cant": "Tests use environments of one kind whose samples all report the monitored value once.", "anchors": ["machin/auto/launcher.py: DistributedLauncher.training_step", "machin/auto/launcher.py: DistributedLauncher._log"]}
{"id": "C217", "title": "Processes of a distributed test meet in their collective calls", "statement": "In a test with DistributedLauncher every process comes to the end of all its test steps.", "quantifier": "for all numbers of processes, batches, logs and monitored keys", "why_tests_cant": "Tests use the same number of episodes in all processes.", "anchors": ["machin/auto/launcher.py: DistributedLauncher.test_step", "machin/auto/launcher.py: DistributedLauncher._log"]}
