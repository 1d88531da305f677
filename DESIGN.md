# Formal model of PGMax in Rocq (Coq 8.16.1)

The code under study is `/repo/pgmax` (vicariousinc/PGMax at the pinned commit).
The model lives in `rocq/theories/`, the properties in `properties.jsonl`, the
mapping from property to theorem in `MANIFEST.json`, the wrong programs the
theorems were tried against in `seeded/LOG.jsonl`.

How to read `theorems_failed` in the log. A theorem counts as failed when its proof no longer
goes through, also when what broke is a lemma it uses; that alone does not show that its
statement has become false. Entries without `first_failure` come from rebuilding all files
that depend on the edit, with each failing proof replaced by an axiom of the scratch copy;
the list is what `Print Assumptions` then reports for the theorems that existed at the time.
In that scratch copy the proofs of many Examples were left out to save time, so
`examples_failed` is incomplete. In one round five `_refuted` theorems were not
rechecked and are only listed where their own proof was seen to fail.
Entries with `first_failure` come from a build that stopped at that lemma; for them the list
was not observed theorem by theorem but read off the sources: the theorems whose proofs use
the lemma (`basis` says so). Where `theorems_checked` is given, only those were looked at.

Build: `cd rocq && coq_makefile -f _CoqProject -o Makefile && make -j4`.

## Approach

* Every Python function is modelled by a Gallina function of the same name, branch
  by branch, with exceptions as values (`res A := Ok a | Raise e`). Each definition
  cites the file and lines it models and says what it simplifies.
* NumPy, JAX and numba primitives (cumsum, slices, `.at[].add/max/set`, gather,
  dynamic_slice, repeat, bincount, argmax ...) are modelled once, in `NumPy.v`, as
  list functions. Arrays from `np.empty` contain *arbitrary* values (a universally
  quantified `junk` function), so theorems also say that uninitialised memory is
  never read.
* Numeric code is written over a class of operations `Num A`. The same code is
  instantiated with the real numbers (most theorems), with the rationals
  (`vm_compute` examples), with real numbers rounded after every operation by an
  arbitrary monotone function (`Rounded.v`: C47, C51), and with real numbers whose
  logarithm and quotient are arbitrary outside their domains (`Partial.v`: C50).
* Specifications are separate from the model (`Spec*.v`): textbook definitions over
  functions `edge -> state -> R`, enumeration of configurations, etc.
* The theorems for the listed properties are in `Props*.v`. Each is closed by
  `exact` with a lemma of a `Lem*.v` file, is followed by `Print Assumptions`, and
  has an `Example` meeting its hypotheses.
* A property that turned out to be false in general is stated with the condition
  under which it holds; a theorem with suffix `_refuted` gives a witness for the
  unconditional version.

## Files

| file | models |
|------|--------|
| `Py.v` | exceptions, association-list dictionaries, loops over `res` |
| `NumPy.v` | class `Num`; array primitives of numpy 1.21, jax 0.3.13 and numba |
| `VGroup.v` | `pgmax/vgroup/{vgroup,varray,vdict}.py` |
| `Factor.v` | `pgmax/factor/{factor,enum,logical}.py` except message passing |
| `FGroup.v` | `pgmax/fgroup/{fgroup,enum,logical}.py` |
| `FGraph.v`, `FGraphFactors.v` | `pgmax/fgraph/fgraph.py`, with the global `lru_cache`s as state |
| `BPState.v` | `pgmax/infer/bp_state.py` |
| `BP.v` | `pgmax/infer/{bp,bp_utils}.py`, message passing of `pgmax/factor/{enum,logical}.py`, `pgmax/utils.py: NEG_INF` |
| `Jit.v` | `__lt__` of groups, sorting of dictionary keys by `jax.jit`, `tree_flatten`/`tree_unflatten` of `BPArrays` and wirings |
| `Rounded.v`, `Partial.v` | the numeric instances described above |
| `Lists.v`, `Lem*.v` | lemmas, no model code |
| `Spec*.v` | specifications |
| `ExBP.v`, `ExTree.v`, `ExJit.v` | example graphs with enumeration, OR and AND factors |
| `Props*.v` | the property theorems |

## Properties

| id | modelled | proof |
|----|----------|-------|
| C01 | `_hash`, `variable_hashes` | integer arithmetic on `id mod 2^32 * 10^9 + i` |
| C02 | `__getitem__` with int tuples | ravel/unravel of row-major indices by induction on the shape |
| C03 | `__getitem__` with slices | induction on the shape |
| C04 | `NDVarArray.flatten/unflatten` | mask-selection/mask-assignment inverse lemmas |
| C05 | `VarDict` | induction over the names |
| C06 | `FactorGraph.__post_init__` | prefix sums, invariant over the group loop |
| C07 | `update_evidence`, `Evidence` | slice-assignment frame lemmas + C06 |
| C08 | same | exact characterisation + refutation witness |
| C09 | same | commuting disjoint writes, permutation induction; refutation witness |
| C10, C11 | constructors | decision of boolean checks |
| C12, C13, C14, C15 | factor groups | list indexing, reshaping |
| C16, C17 | `add_factors` | invariant over the list of operations; witness |
| C18 | `compute_offsets` | prefix sums |
| C19, C44 | several graphs + global `lru_cache`s as a state machine | invariant over all histories; witness for `compute_offsets` |
| C20, C21, C22 | wiring compilation and concatenation | loops shown equal to closed forms |
| C23 | `pass_var_to_fac_messages` | scatter-add as a sum over edges |
| C24, C25, C41 | `pass_enum_fac_to_var_messages` | scatter-max/add as max/sum over configurations |
| C26, C27, C28 | `pass_logical_fac_to_var_messages` | brute force over {0,1}^n by induction on parents |
| C29, C30, C31, C32 | `segment_max_opt`, `normalize_and_clip_msgs`, `run_bp` | invariants and idempotence of normalisation |
| C33, C34, C35 | `get_beliefs`, `decode_map_states`, `get_marginals` | scatter-add, row-wise argmax and softmax |
| C36, C37, C38 | `bp_state.py` | frame lemmas |
| C39 | whole `run_bp` | refinement to textbook BP, edge by edge |
| C40, C43 | corollaries of C39 | simulation between two textbook runs |
| C42, C45 | textbook BP on trees, through C39 | induction on the tree; max-marginals and sum-marginals |
| C46 | `FactorGraph.factors`, `factor_groups` | invariant over histories |
| C47 | `run_bp` in rounded arithmetic | order-preservation of rounding, induction on iterations |
| C48 | two `run_bp` calls on nearby inputs | Lipschitz bound per message, induction on iterations |
| C49 | constructors, `__eq__`, `__getitem__` of tuples, default arrays | decision of boolean checks |
| C50 | whole `run_bp`, `get_marginals`, `update` | relation between the exact and the partial instance |
| C51 | rounded `run_bp` and `get_beliefs` against the exact ones | error per operation, induction on iterations |
| C52 | compiled updates and results, registered classes | uniqueness of sorted lists, permutation lemmas; refutation witness |
| C53 | two `run_bp` calls at different temperatures | convexity inequalities for `exp`, induction on iterations, limits |
| C54 | two `run_bp` calls on graphs that correspond around a variable | induction on iterations over an embedding of graphs |
| C55 | `run_bp` and `get_beliefs` on graphs with factors written in another order | C54's embedding, permutations of truth tables |
| C56 | `run_bp`, `get_beliefs`, `decode_map_states` as n grows | C39, contraction of the spread of messages, completeness of the reals; refuted at T = 0 by a rational computation |
| C57 | fixed points of `run_bp`: `get_beliefs`, `get_marginals`, `decode_map_states` | C39; messages as a reparametrisation of the score; a weighting of trees and loops; global optimality refuted on a clique of four variables |
| C58 | `run_bp` with damping, `get_beliefs`, `decode_map_states`, `get_marginals` on acyclic graphs | C39, C42 and C45 at the undamped fixed point; induction on the height of a message in the tree, one geometric factor per level |
| C59 | `run_bp`, `get_beliefs`, `decode_map_states` on a graph with and without separable factors | C39; the configurations with one state and with another correspond, so the message of a separable factor is its own term plus a constant; induction on the iterations of both graphs |
| C60 | `run_bp`, `get_beliefs`, `decode_map_states` on graphs with repeated configurations | C39; a message is a maximum (or log of a sum) over table entries, regrouped by assignment; induction on the iterations of both graphs |
| C61 | `run_bp`, `get_beliefs`, `decode_map_states` on a graph and its dual | C54 with states exchanged and OR and AND factors reordered; the configurations of an AND factor are the negated ones of the OR factor |
| C62 | `run_bp`, `get_beliefs`, `decode_map_states`, `get_marginals` with large evidence | C29 (messages in [-1000, 0]) with C34, C35; at temperature 0 C39 and: the maximum over all configurations is attained at one that agrees with the held states, whose contribution `normal` removes |
| C63 | `run_bp`, `get_beliefs`, `decode_map_states`, `get_marginals` in other units | C39; every operation of an iteration is homogeneous except the clip at -1000 |
| C64 | `run_bp` without damping on graphs without cycles, for every length of the longest chain of messages | C39; induction on the length of the chains ending at a slot; a cycle gives chains of any length, and a chain is a walk, which LemTree bounds; C42 and C45 from zero messages |
| C65 | `run_bp` and the three results on models with symmetries | C54 for a graph embedded in itself; the decoded state of a tied variable is the first; a chain of three factors that prefer unequal states refutes joint optimality |
| C66 | `run_bp` and the three results on attractive models | update is monotone: exchange of configurations at temperature 0, the four functions theorem on bit strings above it; monotone bounded sequences have limits, which the continuous update keeps; two refutations by computed runs |
| C67 | `pass_logical_fac_to_var_messages` at T > 0 in rounded arithmetic | the formulas of the code in any arithmetic; the terms of strong parents are 0, so `g` is taken at 0; exact bounds from products of 1 + exp; one run computed for the refutation. `jax.nn.log_sigmoid(x)` is modelled as -log(1 + exp(-x)); jax's logaddexp gives the same 0 for large x |
| C68 | `run_bp`, `get_beliefs`, `decode_map_states` at T > 0 in rounded arithmetic, enumeration factors only | the formula of the code in any arithmetic; arguments of exp are at most 0 because rounding is monotone, where exp has slope at most 1; the sum is at least 1/2, where ln has slope at most 2; then the induction of C51 with the drift of C41, and with the contraction of C56 for the bound that lasts. The rounding error is absolute (`rounds_within`), and the computed exp and ln are arbitrary functions within e of the exact ones (`accurate`). |
| C69 | `fg_state`, `BP`, `init`, `update`, `run_bp`, `to_bp_state`, item assignment, `get_beliefs`, `decode_map_states`, `get_marginals` | induction over `obtained` (SpecClient.v), the objects a client can obtain from one fg_state; acceptance from the wiring theorems of C20 and C21. Discharges `bp_of` and `arrays_of`, the hypotheses of the theorems about runs. BPArrays that a client assembles by hand are not covered, and the graph's groups must be well-formed (`wf_groups`), which C12 shows is not checked by the code. |
| C70 | `VarGroup`, `add_factors`, `compute_offsets`, `fg_state`, `update_*`, `run_bp`, `get_beliefs` | a relation between two runs of one program (`same_built`, SpecIds.v), induction over the calls of `add_factors`; sets of variables compare alike since corresponding variables are at the same place of a list without duplicates. Update dictionaries are taken in the same iteration order; that a jitted function sorts its keys by hash, and so by address, is C52. `C70_collision_refuted` shows that the condition on the ids is needed. |
| C71 | `get_beliefs`, `decode_map_states` | `residual`, `share_left` (SpecBound.v): the score of an assignment is the sum of its kept beliefs and residuals, for any messages and shares (from C57's reparametrisation); bounding every term gives the bound, the gap of the decoded states and the certificate. Example: on the clique of C57 the bound is 16 and the gap 4 at the bad fixed point, both attained; at the good one the decoded states are certified |
| C72 | `run_bp`, `get_beliefs` | `bethe`, `partition_sum` (SpecBound.v): along the elimination order of C45 every factor contributes a constant, the ratio of its sum and the sum of its variable closest to the root; adding up gives the Bethe free energy. Refuted for graphs with cycles (`C72_cyclic_refuted`) |
| C73 | `run_bp`, `get_beliefs` | `config_marginal` (SpecJoint.v): the elimination order of C45 with a variable of the factor as root, for weights restricted to selected configurations of the factor; what is left is the sum over the selected ones of exp(belief / T), times a constant that does not depend on the selection |
| C74 | `run_bp`, `get_beliefs` | `config_max` (SpecMaxJoint.v): the order of C42 with a variable of the factor as root; the given configuration of the factor extends to an assignment in which every other factor has its largest excess |

## Trusted base

* The Coq 8.16.1 kernel (with `vm_compute`, used in examples and small decisions)
  and its standard library.
* That the model says what the Python code does. It was written by reading the
  source; it was not generated from it, and the Python code was not run.
* That `NumPy.v` describes the library primitives: negative gather indices wrap once
  and are then clamped, out-of-range scatter indices are dropped, `dynamic_slice`
  starts are wrapped and clamped, Python slices follow `slice.indices`.

No axioms are declared here. `Print Assumptions` reports three cases.

*Closed under the global context*, 125 theorems: `C01_distinct_ids_refuted`, `C01_size_enforced`, `C01_unique_identity`, `C02_int_indexing`, `C02_ravel_bijective`, `C03_errors`, `C03_int_first`, `C03_int_first_refuted`, `C03_slicing`, `C03_slicing_succeeds`, `C04_ambiguous_only_if_one_state`, `C04_flatten_accepts`, `C04_flatten_rows`, `C04_one_state_roundtrip_refuted`, `C04_roundtrip_per_state`, `C04_roundtrip_per_variable`, `C04_unflatten`, `C04_unflatten_flatten`, `C05_flatten`, `C05_lookup`, `C05_mixed_roundtrip_refuted`, `C05_no_names`, `C05_roundtrip`, `C05_unflatten`, `C05_wrong_kind`, `C06_compiled_layout`, `C06_layout_partition`, `C07_reads`, `C07_write_read`, `C08_errors`, `C08_per_variable_overwrites`, `C08_per_variable_refuted`, `C08_variable_sizes`, `C09_evidence_order`, `C09_log_potentials_order`, `C09_overlap_refuted`, `C10_enum_factor`, `C11_group_unchecked`, `C11_logical_factor`, `C11_logical_wiring`, `C12_configs_validated_refuted`, `C12_enum_errors`, `C12_enum_group`, `C13_grid`, `C13_pairwise_group`, `C14_ambiguous_sizes`, `C14_enum_round_trip`, `C14_pairwise_round_trip`, `C14_unflatten`, `C15_duplicates`, `C15_factors`, `C15_lookup`, `C16_addition`, `C16_factors_refused`, `C16_groups_kept`, `C16_no_duplicates`, `C17_list`, `C17_reserved_sets`, `C18_blocks`, `C18_ids`, `C18_ranges`, `C18_sizes`, `C19_direct_offsets_refuted`, `C19_fresh`, `C20_dimensions`, `C20_enum_wiring`, `C20_no_junk`, `C20_num_configs`, `C20_only_total_checked`, `C20_var_states`, `C21_graph_compiles`, `C21_logical_wiring`, `C22_enum_one_by_one`, `C22_factors_determine_wiring`, `C22_logical_one_by_one`, `C36_accept`, `C36_initial`, `C36_write_read`, `C37_errors`, `C37_spread`, `C38_init`, `C38_to_bp_state`, `C38_update`, `C43_accepted`, `C43_accepted_order`, `C43_factors`, `C44_addition`, `C44_identity`, `C44_same_object`, `C44_stable`, `C46_exact`, `C46_factors`, `C46_fresh`, `C46_pure`, `C49_add`, `C49_array`, `C49_default`, `C49_dict`, `C49_equality`, `C49_logical_group`, `C49_tuple`, `C52_arrays`, `C52_evidence`, `C52_last_wins_refuted`, `C52_log_potentials`, `C52_messages`, `C52_order`, `C52_overlap`, `C52_results`, `C52_sorting`, `C52_wirings`, `C55_columns`, `C55_parents`, `C64_acyclic`, `C69_available`, `C69_compiles`, `C69_exists`, `C69_fits`, `C69_ready`, `C70_additions`, `C70_collision_refuted`, `C70_compiled`, `C70_program`, `C70_runs`, `C70_updates`.

*The axioms behind the standard library's real numbers*, namely
`ClassicalDedekindReals.sig_not_dec`, `ClassicalDedekindReals.sig_forall_dec`,
`FunctionalExtensionality.functional_extensionality_dep` and
`Classical_Prop.classic`, 163 theorems: `C23_var_to_fac`, `C24_enum_max`, `C24_enum_textbook`, `C24_no_configuration`, `C25_enum_soft`, `C25_sum_product`, `C26_factors`, `C26_logical_max`, `C27_factors`, `C27_logical_soft`, `C28_equivalent`, `C29_bounded`, `C29_normalised`, `C30_correct`, `C30_first_message`, `C30_oversize`, `C30_unbounded_refuted`, `C31_bounded`, `C31_resume`, `C31_zero_and_frame`, `C32_convex`, `C32_fixed_point`, `C32_freeze`, `C32_undamped`, `C33_beliefs`, `C34_map_states`, `C34_no_axis`, `C34_one_state`, `C35_marginals`, `C35_one_state`, `C35_row`, `C37_sum`, `C39_bounded`, `C39_textbook`, `C40_beliefs`, `C40_bounded`, `C40_decode`, `C40_messages`, `C40_unbounded_refuted`, `C41_low_temperature`, `C42_beliefs`, `C42_converges`, `C42_converges_small`, `C42_map`, `C42_small`, `C42_textbook`, `C42_unclipped`, `C42_unique`, `C43_bounded`, `C43_graphs`, `C43_order`, `C43_run`, `C45_beliefs`, `C45_marginals`, `C45_small`, `C45_textbook`, `C47_freeze`, `C47_interval`, `C47_normalised`, `C47_resume`, `C47_undamped_refuted`, `C48_bounded`, `C48_constants`, `C48_decode`, `C48_messages`, `C50_logical`, `C50_marginals`, `C50_run`, `C50_uncovered`, `C50_update`, `C51_beliefs`, `C51_damping`, `C51_decode`, `C51_messages`, `C51_normalised`, `C53_decode`, `C53_decode_limit`, `C53_limit`, `C53_messages`, `C53_update`, `C54_added`, `C54_beliefs`, `C54_far`, `C54_messages`, `C55_graphs`, `C55_order`, `C56_approach`, `C56_converges`, `C56_cycle`, `C56_decode`, `C56_hot`, `C56_inputs`, `C56_pairwise`, `C56_rate`, `C56_zero_temperature_refuted`, `C57_floor`, `C57_global_refuted`, `C57_loop_map`, `C57_marginals`, `C57_marginals_one`, `C57_max`, `C57_optimal`, `C57_reparametrise`, `C58_beliefs`, `C58_converges`, `C58_decodes`, `C58_map`, `C58_marginals`, `C59_evidence`, `C59_message`, `C59_same`, `C59_undamped`, `C59_uninformative`, `C60_beliefs`, `C60_messages`, `C61_beliefs`, `C61_messages`, `C62_beliefs`, `C62_held`, `C62_messages`, `C62_smaller_refuted`, `C63_beliefs`, `C63_clipped_refuted`, `C63_messages`, `C63_range`, `C64_final`, `C64_marginals`, `C64_max`, `C65_beliefs`, `C65_messages`, `C65_tied`, `C65_together_refuted`, `C66_any_model_refuted`, `C66_beliefs`, `C66_clipped_refuted`, `C66_extremes`, `C66_falling`, `C66_messages`, `C66_rising`, `C67_child_exact`, `C67_close_refuted`, `C67_parent_exact`, `C68_beliefs`, `C68_damping`, `C68_decode`, `C68_lasting`, `C68_messages`, `C68_normalised`, `C68_settles`, `C69_results`, `C71_bound`, `C71_gap`, `C71_optimal`, `C72_cyclic_refuted`, `C72_partition`, `C72_small`, `C72_textbook`, `C73_joint`, `C73_small`, `C73_textbook`, `C74_max`, `C74_small`, `C74_textbook`.

*Only `sig_forall_dec` and `functional_extensionality_dep` of these*, 5 theorems: `C57_loops`, `C57_trees`, `C58_rate`, `C67_child_rounded`, `C67_parent_rounded`.

## Idealisations in the model

* Numbers. Real arithmetic is exact unless the theorem is about `RoundNum`. `RoundNum`
  rounds every sum, difference, product and quotient, keeps integers up to 100000,
  and takes arbitrary functions for `exp` and `log`; it has no overflow, infinities or
  NaN. Reductions are summed in index order; XLA may choose another order.
* `exp(NEG_INF)` (that is `exp(-100000)`) is 0, as it is in float32.
* Coq's `ln x` is 0 for `x <= 0` and `x / 0` is unspecified. C50 shows that this is not
  relied on when every state occurs in some configuration. In other graphs at
  temperature > 0 the code takes `log 0 = -inf`; the theorems about T > 0 exclude them.
  A logsumexp over a row of infinite padding only is 0 in the model, NaN in JAX.
* Sizes are `nat`, index arrays are lists of `Z`; int64 wrap-around is not modelled.
* Object ids are integers, assumed distinct for live groups where a theorem says so
  (`groups_ok`, `C19`); C01 states what happens when two ids agree modulo 2^32.
* `SingleFactorGroup` and the factors of a group are rebuilt by their constructors
  instead of being cached objects.
* `NDVarArray` of shape `()` (whose hashes become floats), and logical factors without
  parents in wirings built by hand, follow the model's `nat` arithmetic and are not
  claimed to be faithful.
* `Jit.v` assumes of `list.sort` that it permutes its argument and sorts it when `<` orders
  the elements. The hash of a tuple is arbitrary, except in examples and in
  `C52_last_wins_refuted`, which use CPython's formula. Dictionaries that mix names of
  types that cannot be compared are not covered.
* `map2` truncates to the shorter list; NumPy would broadcast or raise. Where the code
  adds arrays the theorems have hypotheses (or proofs) that the lengths agree.

## Not modelled

XLA compilation and fusion (of `jax.jit` only the treatment of dictionaries and
registered classes is modelled, in `Jit.v`), gradients (`jax.checkpoint`), `vmap` batching by users, float dtype promotion, overflow and NaN,
printing, docs and the examples directory.
