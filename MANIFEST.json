{
 "claims": [
  {
   "property": "C01",
   "status": "proved",
   "theorems": [
    "C01_evaluation_order",
    "C01_every_node_once"
   ],
   "note": "For every network reachable by in-range edits, playing and combining (histories in which remove_link makes a node read itself are excluded; see C02)."
  },
  {
   "property": "C02",
   "status": "partial",
   "theorems": [
    "C02_remove_link_refuted",
    "C02_well_formed_partial"
   ],
   "note": "The full statement is false of the code: C02_remove_link_refuted gives a history of in-range calls (remove_link twice on a loop of two nodes) that leaves a dangling connection and makes tick panic. C02_well_formed_partial proves the invariant, and that no in-range call panics, for every history without such a remove_link."
  },
  {
   "property": "C03",
   "status": "proved",
   "theorems": [
    "C03_remove"
   ],
   "note": "remove and remove_link on every reachable network (histories as in C01)."
  },
  {
   "property": "C04",
   "status": "proved",
   "theorems": [
    "C04_tick_is_dataflow"
   ],
   "note": "Existence and uniqueness of the dataflow solution for every reachable acyclic network, arbitrary units."
  },
  {
   "property": "C05",
   "status": "proved",
   "theorems": [
    "C05_blocks_are_ticks"
   ],
   "note": "Every sequence of blocks of sizes 0..64, every reachable acyclic network of units whose blocks agree with ticks."
  },
  {
   "property": "C06",
   "status": "proved",
   "theorems": [
    "C06_branch",
    "C06_channelwise",
    "C06_pipe",
    "C06_scalar",
    "C06_stack",
    "C06_thru",
    "C06_wrap"
   ],
   "note": "pipe, stack, branch, bus, channelwise operators, thru, wrap and scalar, as dataflow equations of the combined network."
  },
  {
   "property": "C07",
   "status": "partial",
   "theorems": [
    "C07_check_after_pipe_refuted",
    "C07_check_after_remove_refuted",
    "C07_check_partial"
   ],
   "note": "The full statement is false of the code: C07_check_after_remove_refuted and C07_check_after_pipe_refuted give consistent networks on which check panics because of a stale source_vertex. C07_check_partial proves that check passes whenever the order is current."
  },
  {
   "property": "C08",
   "status": "partial",
   "theorems": [
    "C08_commit",
    "C08_full_channel_refuted",
    "C08_no_panic",
    "C08_playing_is_committed",
    "C08_poll"
   ],
   "note": "Proved for every history whose sends find room in the channel. False of the code when the channel is full: C08_full_channel_refuted. Playing the frontend itself and changes of sample rate are outside the histories."
  },
  {
   "property": "C09",
   "status": "partial",
   "theorems": [
    "C09_new_node_refuted",
    "C09_settings_partial"
   ],
   "note": "The full statement is false of the code: C09_new_node_refuted. Proved for nodes that the backend already plays and that stay."
  },
  {
   "property": "C10",
   "status": "partial",
   "theorems": [
    "C10_new_nodes_partial",
    "C10_playing_nodes_partial",
    "C10_reset_refuted",
    "C10_skipped_fade_in_refuted"
   ],
   "note": "The full statement is false of the code: C10_skipped_fade_in_refuted, C10_reset_refuted. Proved for nodes that stay, and for new nodes edited before the newest commit."
  },
  {
   "property": "C11",
   "status": "partial",
   "theorems": [
    "C11_blocks",
    "C11_crossfade",
    "C11_f32_length_refuted",
    "C11_queued_refuted",
    "C11_weights"
   ],
   "note": "Proved with exact (real) arithmetic for crossfades of a whole number N of samples on a slot with no further edit queued, for ticks and for any partition into blocks. The full statement is false of the code: C11_f32_length_refuted (f32 rounding lengthens the tick fade and shortens the block fade) and C11_queued_refuted (a queued crossfade starts at different samples in ticks and blocks). The power fade uses the code's rational sine approximation, whose weights are in [0,1] and monotone but do not sum to one."
  },
  {
   "property": "C12",
   "status": "partial",
   "theorems": [
    "C12_dummy_partial",
    "C12_dummy_silent_partial",
    "C12_fade_in_refuted"
   ],
   "note": "The full statement is false of the code: the placeholder clears only simd_items(size) samples in blocks, so C12_fade_in_refuted shows the previous block leaking into a fade-in. Proved: silent in ticks, exact effect in blocks, silent on silent buffers."
  },
  {
   "property": "C13",
   "status": "partial",
   "theorems": [
    "C13_halfway_refuted",
    "C13_samples_partial",
    "C13_ticks_partial"
   ],
   "note": "Proved for every set of events pushed in any order, any division into blocks and single samples, exact arithmetic, events without fades that do not end exactly halfway between two samples; sample by sample for all events. The full statement is false of the code: C13_halfway_refuted."
  },
  {
   "property": "C14",
   "status": "partial",
   "theorems": [
    "C14_edit_reaches_partial",
    "C14_leaving",
    "C14_one_group",
    "C14_tick_total"
   ],
   "note": "Groups, lookup and totality proved for all histories and any numbers; an edit that moves the end of a waiting event to the past does not reach it (C16_past_end_refuted)."
  },
  {
   "property": "C15",
   "status": "partial",
   "theorems": [
    "C15_fade_in_refuted",
    "C15_fade_out_refuted",
    "C15_history_partial",
    "C15_negative_refuted",
    "C15_panic_refuted",
    "C15_weights_partial"
   ],
   "note": "All histories whose blocks are fair to the events (see SeqSpec.fair), exact arithmetic. The full statement is false of the code: fades that start inside a block are misplaced, a fade in can start negative, and a fade out can panic in f64 (C15_*_refuted)."
  },
  {
   "property": "C16",
   "status": "partial",
   "theorems": [
    "C16_edit_partial",
    "C16_past_end_refuted",
    "C16_revived_refuted"
   ],
   "note": "All histories with fair blocks and edits whose new end is not in the past unless the event has started. The full statement is false of the code: C16_past_end_refuted, C16_revived_refuted."
  },
  {
   "property": "C17",
   "status": "partial",
   "theorems": [
    "C17_messages_partial",
    "C17_reset_refuted"
   ],
   "note": "All batches in which only resets follow a reset. The full statement is false of the code: C17_reset_refuted."
  },
  {
   "property": "C18",
   "status": "partial",
   "theorems": [
    "C18_any_partition",
    "C18_any_partition_exact",
    "C18_block_equals_ticks",
    "C18_join_rounding_refuted",
    "C18_multibus_sign_of_zero_refuted",
    "C18_thru_generator_refuted"
   ],
   "note": "Proved for every expression over leaves that satisfy the block contract, every block partition and every buffer content (C18_any_partition), under the explicit condition 'blockable'; with exact arithmetic the only condition is that pass-through nodes have an input (C18_any_partition_exact). The unrestricted statement is false of the code: Join rounds differently in blocks, MultiBus changes the sign of zero, and Thru over a generator does not advance it in blocks (the _refuted theorems)."
  },
  {
   "property": "C19",
   "status": "proved",
   "theorems": [
    "C19_associative",
    "C19_binop",
    "C19_branch",
    "C19_branch_shares_input",
    "C19_bus",
    "C19_bus_commutative",
    "C19_bus_sums_branch",
    "C19_chain",
    "C19_chain_is_pipes",
    "C19_congruence",
    "C19_exchange",
    "C19_multibranch",
    "C19_multibus",
    "C19_multistack",
    "C19_pass_is_unit",
    "C19_pipe",
    "C19_readme_equivalences",
    "C19_reduce",
    "C19_reverse_involutive",
    "C19_split_then_join",
    "C19_stack",
    "C19_thru",
    "C19_unop"
   ],
   "note": "Stream equations for every combinator plus associativity, units, exchange, congruence and the README equivalences, for arbitrary sample types and leaves. split>>join is over exact reals."
  },
  {
   "property": "C20",
   "status": "proved",
   "theorems": [
    "C20_addresses_distinct",
    "C20_set_exact",
    "C20_set_reaches"
   ],
   "note": "Nodes inside Feedback/Feedback2 have no address: those nodes do not override set. An index past the last child panics (C20_index_panics). The limit of four address levels is not modelled."
  },
  {
   "property": "C21",
   "status": "partial",
   "theorems": [
    "C21_dial_refuted",
    "C21_dropped_refuted",
    "C21_received_partial",
    "C21_reset_refuted"
   ],
   "note": "The full statement is false of the code: SettingListener does not define set, so every setting is dropped (C21_dropped_refuted, for every node and every history; C21_dial_refuted shows the difference to setting directly). The partial theorem: settings are accepted in order and taken from the queue before the next output."
  },
  {
   "property": "C22",
   "status": "proved",
   "theorems": [
    "C22_blocks",
    "C22_delay",
    "C22_rounding",
    "C22_tick"
   ],
   "note": "Delay (any number type) and Tick; times and samples share one number type; rounding on R."
  },
  {
   "property": "C23",
   "status": "partial",
   "theorems": [
    "C23_linear_blocks_partial",
    "C23_linear_blocks_refuted",
    "C23_linear_ticks",
    "C23_linear_tone",
    "C23_tap_blocks",
    "C23_tap_ticks",
    "C23_tap_tone"
   ],
   "note": "Tap proved in ticks and blocks over R (f32 rounding and NaN not modelled). TapLinear proved in ticks; in blocks the full statement is false of the code (C23_linear_blocks_refuted: the buffer may be up to seven samples too short for block mode), the partial theorem gives the condition on the buffer length."
  },
  {
   "property": "C24",
   "status": "proved",
   "theorems": [
    "C24_feedback2_equation",
    "C24_feedback_equation",
    "C24_feedback_unique",
    "C24_unit",
    "C24_unit_delay",
    "C24_unit_reset"
   ],
   "note": "Feedback, Feedback2 as equations between streams; FeedbackUnit for any mix of ticks and blocks. Equality of blocks and ticks of Feedback and Feedback2 is C18."
  },
  {
   "property": "C25",
   "status": "proved",
   "theorems": [
    "C25_big",
    "C25_block_rate",
    "C25_block_rate_reset",
    "C25_block_rate_ticks"
   ],
   "note": "BigBlockAdapter for units whose blocks are ticks (unit_laws), any calls; BlockRateAdapter for any unit."
  },
  {
   "property": "C26",
   "status": "proved",
   "theorems": [
    "C26_reduce_total",
    "C26_empty_reducer_panics"
   ],
   "note": "Any carrier that is a commutative monoid; for the limiter the carrier is the non-negative numbers under max. Length 0 panics in total() (C26_empty_reducer_panics)."
  },
  {
   "property": "C27",
   "status": "partial",
   "theorems": [
    "C27_limiter_fresh_gain_partial",
    "C27_limiter_fresh_exact",
    "C27_limiter_amplifies_after_reset_refuted"
   ],
   "note": "The full statement is false of the code: after reset() a quiet signal is amplified (refuted theorem, all look-aheads and coefficients). Proved for a freshly created limiter, over the reals."
  },
  {
   "property": "C28",
   "status": "partial",
   "theorems": [
    "C28_afollow_reset",
    "C28_declick",
    "C28_delays",
    "C28_effect_units",
    "C28_either",
    "C28_everything",
    "C28_expression_reset",
    "C28_expressions",
    "C28_feedback_unit",
    "C28_filter_inputs_reset",
    "C28_follow_reset",
    "C28_generators",
    "C28_linear_taps",
    "C28_meters",
    "C28_nested",
    "C28_nodes",
    "C28_subsample_refuted"
   ],
   "note": "An expression of any combinators over units that reset restores is restored (C28_expressions), and the units are: nodes with settings and parameter inputs (C28_nodes), the units of the effects, generators, delays, FIR filters, panners, taps, declickers, meters, AllNest and FeedbackUnit; C28_everything puts them together. The full statement is false of the code: the limiter violates it (see C27), and so do subsampled filters (C28_subsample_refuted). Followers: C28_follow_reset. Other areas prove reset for their own nodes: C24_unit_reset, C25_block_rate_reset, C47_fir_reset, C62_pluck_reset, C63_reset, C65_reset, C68_settings, C72_reset, C76_reset."
  },
  {
   "property": "C29",
   "status": "partial",
   "theorems": [
    "C29_append_refuted",
    "C29_common_length",
    "C29_edit_partial",
    "C29_made",
    "C29_removed"
   ],
   "note": "Appending a wave without channels to a wave without channels panics (C29_append_refuted), so the full statement is false of the code; all other edits allowed by the documentation are proved to succeed with the documented effect, and every panic free history keeps the common length. append assumes 0 + x = x (true of floats up to the sign of zero). retain is restricted as in C30."
  },
  {
   "property": "C30",
   "status": "partial",
   "theorems": [
    "C30_beyond_refuted",
    "C30_longest_refuted",
    "C30_retain_partial"
   ],
   "note": "False of the code: spans starting beyond the end panic (C30_beyond_refuted), lengths of 2^63 and more wrap (C30_longest_refuted). Proved for all other spans."
  },
  {
   "property": "C31",
   "status": "proved",
   "theorems": [
    "C31_checked",
    "C31_player"
   ],
   "note": "For all waves, points and times; reads stay inside the wave."
  },
  {
   "property": "C32",
   "status": "partial",
   "theorems": [
    "C32_filter",
    "C32_latency_partial",
    "C32_latency_refuted",
    "C32_render",
    "C32_reset_refuted"
   ],
   "note": "render and filter proved for any lawful unit and any number type. The latency variants use the latency from before the sample rate is set and do not reset the node (C32_latency_refuted, C32_reset_refuted); proved where the latency does not depend on the sample rate, with exact times."
  },
  {
   "property": "C33",
   "status": "proved",
   "theorems": [
    "C33_mls_initial_state_nonzero",
    "C33_mls_full_period",
    "C33_mls_output_period"
   ],
   "note": "All orders 1..31, all seeds, all steps."
  },
  {
   "property": "C34",
   "status": "proved",
   "theorems": [
    "C34_brown",
    "C34_noise_block_equals_tick",
    "C34_noise_hash_permutation",
    "C34_noise_range",
    "C34_pink",
    "C34_pinkpass",
    "C34_pinkpass_gain"
   ],
   "note": "Range is proved in exact arithmetic; pink and brown noise over the reals, as expressions that tick."
  },
  {
   "property": "C35",
   "status": "proved",
   "theorems": [
    "C35_hash1_permutation",
    "C35_rnd1_unit_interval",
    "C35_atto_hash_injective"
   ],
   "note": "Bit level."
  },
  {
   "property": "C36",
   "status": "partial",
   "theorems": [
    "C36_duplicate_refuted",
    "C36_first_ids",
    "C36_one_thread",
    "C36_prompt_partial"
   ],
   "note": "The full statement is false of the code: C36_duplicate_refuted (a call overtaken by 0xfff00000 others returns an id a second time). Proved: any interleaving in which no attempt is overtaken by 2^20 - 1 others, any interleaving of at most 0xfff00000 attempts, and 2^62 steps of one thread. Atomic operations interleave (sequential consistency)."
  },
  {
   "property": "C37",
   "status": "partial",
   "theorems": [
    "C37_arcs",
    "C37_clamp",
    "C37_easing_exact",
    "C37_lerp",
    "C37_range_f32_refuted"
   ],
   "note": "Over the reals the smooth, sine and arc curves map [0,1] strictly monotonically onto [0,1], the smooth ones are symmetric, lerp and delerp are inverse and clamp gives the nearest number in range. In f32 smooth5, smooth7 and smooth9 exceed 1 near 1 (C37_range_f32_refuted), so the range part is false of the f32 code."
  },
  {
   "property": "C38",
   "status": "partial",
   "theorems": [
    "C38_mono_partial",
    "C38_mono_refuted",
    "C38_spline"
   ],
   "note": "spline: middle points, exactness on quadratic data and the 1/8 bound are proved for all real data. spline_mono is proved within the middle points unless the data fall twice in a row; in that case it always overshoots (C38_mono_refuted), so the full statement is false of the code."
  },
  {
   "property": "C39",
   "status": "partial",
   "theorems": [
    "C39_afollow_bounds",
    "C39_coefficient_range",
    "C39_follow_bounds",
    "C39_follow_jump",
    "C39_follow_jump_refuted",
    "C39_halfway_refuted",
    "C39_meter",
    "C39_meter_blocks",
    "C39_overflow_refuted",
    "C39_rms"
   ],
   "note": "Followers and meters proved over the reals. The full statement is false of the code: the RMS level is not halfway after the documented time scale (C39_halfway_refuted), a sample whose square overflows makes it infinite for good (C39_overflow_refuted), and a value that a follower is told to jump to before its first sample is forgotten (C39_follow_jump_refuted)."
  },
  {
   "property": "C40",
   "status": "partial",
   "theorems": [
    "C40_history",
    "C40_latest_partial",
    "C40_overflow_refuted",
    "C40_passes_through",
    "C40_unfinished_refuted"
   ],
   "note": "The full statement is false of the code: up to 63 of the latest samples are not shown (C40_unfinished_refuted) and blocks are lost when 1024 are unread (C40_overflow_refuted). Proved: what is shown in every run (C40_history) and that without loss it is all finished blocks (C40_latest_partial)."
  },
  {
   "property": "C41",
   "status": "proved",
   "theorems": [
    "C41_fifo"
   ],
   "note": "Every schedule of sends and ticks, any capacity. Channel operations are atomic steps."
  },
  {
   "property": "C42",
   "status": "partial",
   "theorems": [
    "C42_conserved",
    "C42_crossfades",
    "C42_dropped_refuted",
    "C42_latest_partial",
    "C42_no_panic",
    "C42_refused_refuted"
   ],
   "note": "Proved with exact times for all interleavings in which at most 1022 updates wait. The full statement is false of the code: with 1024 updates waiting, set drops the new unit (C42_refused_refuted), and units that end while the return channel is full are dropped on the audio thread (C42_dropped_refuted). C42_crossfades carries the crossfade properties over to slots."
  },
  {
   "property": "C43",
   "status": "proved",
   "theorems": [
    "C43_array",
    "C43_as_channels",
    "C43_overrun",
    "C43_owned",
    "C43_scalar_write",
    "C43_subset",
    "C43_views",
    "C43_word_write"
   ],
   "note": "For channels and indices in range, both views, subsets, owned and inline buffers, with and without debug assertions. C43_overrun shows what an index out of the documented range does."
  },
  {
   "property": "C44",
   "status": "proved",
   "theorems": [
    "C44_energy",
    "C44_involution",
    "C44_matrix",
    "C44_rounded_scale"
   ],
   "note": "With exact additions, for the exact scale and for the scale as rounded to f32. Rounding of the sums in f32 is not covered."
  },
  {
   "property": "C45",
   "status": "proved",
   "theorems": [
    "C45_histories_differ",
    "C45_ping_seeds",
    "C45_probe_is_pure"
   ],
   "note": "The hash function is a parameter; the theorem says which ID sequence is hashed for each leaf."
  },
  {
   "property": "C46",
   "status": "partial",
   "theorems": [
    "C46_constants",
    "C46_delayed_input",
    "C46_latency_heard",
    "C46_limiter_constant_refuted",
    "C46_limiter_lookahead_refuted",
    "C46_merge_min",
    "C46_pipe_sum",
    "C46_pipe_sum_refuted",
    "C46_safe_without_stacks",
    "C46_stack_constants_refuted",
    "C46_stack_panics_refuted"
   ],
   "note": "Full statement is false of the code: Routing::Arbitrary(w) with several inputs counts w more than once (C46_pipe_sum_refuted), stacks hand all labels to their first child (C46_stack_panics_refuted, C46_stack_constants_refuted), the limiter's label is wrong for constants and its gain looks ahead (C46_limiter_*_refuted). Proved for all other expressions: labels are sound with respect to what is heard, sums along pipes, minima where paths meet, constants."
  },
  {
   "property": "C47",
   "status": "partial",
   "theorems": [
    "C47_fir_any",
    "C47_fir_blocks",
    "C47_fir_partial",
    "C47_fir_refuted",
    "C47_fir_reset",
    "C47_fir_set_weights",
    "C47_fir_symmetric",
    "C47_impulse_response",
    "C47_mixer",
    "C47_mixer_blocks",
    "C47_mixer_pipe",
    "C47_pan_blocks",
    "C47_pan_ends",
    "C47_pan_monotone",
    "C47_pan_power",
    "C47_pan_value"
   ],
   "note": "The literal statement is false of the code: fir(w) convolves with its weights in reverse order (C47_fir_refuted, a finding). Proved: convolution with the reversed weights, equality for symmetric weights, the order of summation in any arithmetic, reset, blocks; matrix product and composition of mixers; the panner's gains after any history, power, end points, monotonicity, blocks in f32."
  },
  {
   "property": "C48",
   "status": "partial",
   "theorems": [
    "C48_output",
    "C48_pitch",
    "C48_quadratic",
    "C48_range",
    "C48_start_refuted",
    "C48_tone",
    "C48_whole_speed"
   ],
   "note": "The full statement is false of the code: at speed 1 the first two frames of the source are not heard (C48_start_refuted; the code's comment says it starts at the second). Everything else is proved, over the reals."
  },
  {
   "property": "C49",
   "status": "partial",
   "theorems": [
    "C49_adsr_attack",
    "C49_adsr_range",
    "C49_adsr_release",
    "C49_adsr_reset_refuted",
    "C49_adsr_silent_refuted",
    "C49_adsr_sustain",
    "C49_blocks_float_refuted",
    "C49_blocks_short_refuted",
    "C49_clock_stops_no_input_refuted",
    "C49_clock_stops_refuted",
    "C49_envelope_blocks",
    "C49_envelope_close",
    "C49_envelope_input_blocks",
    "C49_envelope_input_line",
    "C49_envelope_line",
    "C49_envelope_linear",
    "C49_envelope_range",
    "C49_envelope_slope",
    "C49_rate_change_refuted",
    "C49_segments",
    "C49_zero_interval_refuted"
   ],
   "note": "The full statement is false of the code. Proved over the reals for intervals of at least 4/3 samples: lines between segment ends, segment lengths, range, closeness, exactness, blocks, ADSR range, attack, sustain and release. Refuted: blocks with binary32 rounding or short intervals, an interval of zero (processing does not end), sample rate changes within a segment, binary32 time that stops at 512 s when ticked (input then ignored), ADSR silence before the first key press, ADSR reset."
  },
  {
   "property": "C50",
   "status": "partial",
   "theorems": [
    "C50_constant",
    "C50_minimum_phase_refuted",
    "C50_new",
    "C50_output",
    "C50_route_refuted",
    "C50_shape"
   ],
   "note": "Proved over the reals for every enclosed node, weights, stream, history and ring position: the output is the spec (zero insertion, filter with gain 2, node twice per sample, filter, keep every second), after new and after reset; constants pass to 0.11 percent. The full statement is false of the code: the weights are applied in reverse, so the filter is the maximum phase one, and route reports the response of the enclosed node only, without the two filters (refuted). Rounding of f32 is not modelled."
  },
  {
   "property": "C51",
   "status": "partial",
   "theorems": [
    "C51_limiter_passes_first_peak_refuted",
    "C27_limiter_fresh_gain_partial"
   ],
   "note": "False of the code: the first frame is passed undamped whatever its level."
  },
  {
   "property": "C52",
   "status": "partial",
   "theorems": [
    "C52_edit_restarts_noise_refuted",
    "C52_order_keeps_state_partial"
   ],
   "note": "The full statement is false of the code: C52_edit_restarts_noise_refuted. C52_order_keeps_state_partial proves it for units that ignore pings."
  },
  {
   "property": "C53",
   "status": "proved",
   "theorems": [
    "C53_edit_effect",
    "C53_playing_keeps_connections"
   ],
   "note": "All edits of the model; histories as in C01."
  },
  {
   "property": "C54",
   "status": "proved",
   "theorems": [
    "C54_coefficient_input",
    "C54_lossless",
    "C54_passive"
   ],
   "note": "AllNest over R (energy); the two-input form for any arithmetic."
  },
  {
   "property": "C55",
   "status": "partial",
   "theorems": [
    "C55_amplitude",
    "C55_fades",
    "C55_normalize_partial",
    "C55_normalize_refuted"
   ],
   "note": "Proved with real arithmetic. In binary32 normalize turns a very quiet wave into infinities and NaN (C55_normalize_refuted)."
  },
  {
   "property": "C56",
   "status": "proved",
   "theorems": [
    "C56_at_once",
    "C56_latest",
    "C56_waits",
    "C56_waits_block"
   ],
   "note": "For any number type and any units."
  },
  {
   "property": "C57",
   "status": "partial",
   "theorems": [
    "C57_average_refuted",
    "C57_decibels",
    "C57_dissonance",
    "C57_inverses",
    "C57_periodic",
    "C57_soft",
    "C57_softmix_partial",
    "C57_tuning"
   ],
   "note": "All parts are proved over the reals, with ln, exp and sqrt the real functions, except that softmix is scaled by a factor just below 1 (the guard 1e-10), so that its average at bias 0 is not exact in f64 (C57_average_refuted)."
  },
  {
   "property": "C58",
   "status": "proved",
   "theorems": [
    "C58_ease_noise",
    "C58_ease_noise_slope",
    "C58_fractal",
    "C58_fractal_mean_slope",
    "C58_fractal_slope",
    "C58_hash_numbers",
    "C58_spline_noise",
    "C58_spline_noise_slope"
   ],
   "note": "For all seeds, positions, easing functions that keep [0,1], draws of the generator and roughness, over the reals; the hash functions of the crate funutd are arbitrary functions to 64-bit words.; the hashes turned into numbers are in 0...1 and -1...1"
  },
  {
   "property": "C59",
   "status": "partial",
   "theorems": [
    "C59_now",
    "C59_rate_partial",
    "C59_rate_refuted"
   ],
   "note": "The full statement is false of the code: Slot::set does not set the sample rate of the new unit (C59_rate_refuted). Proved for units that were given the slot's rate beforehand."
  },
  {
   "property": "C60",
   "status": "partial",
   "theorems": [
    "C60_filter_heard",
    "C60_morph_partial",
    "C60_morph_refuted",
    "C60_response_heard",
    "C60_response_stable",
    "C60_response_unique",
    "C60_set_gain_inaudible",
    "C60_set_gain_refuted"
   ],
   "note": "Proved over the reals for every expression built from one-pole filters, DC blocker, allpole, pink filter, follower, biquads, state variable filters (all nine modes, after any settings other than set_gain), FIR, delays, mixers, panners and all operators. False of the code in two places: Morph reports a wrong response when it does not see the raw input (C60_morph_refuted; C60_morph_partial says exactly when it is right), and FixedSvf::set_gain changes the reported response but not the sound (C60_set_gain_refuted). Filters with parameter inputs are covered with constant parameters; rounding is not modelled; moog, resonant lowpass with nonlinearities, and oversampled nodes are not modelled."
  },
  {
   "property": "C61",
   "status": "proved",
   "theorems": [
    "C61_allpole",
    "C61_allpole_delay",
    "C61_biquad_edges",
    "C61_biquad_levels",
    "C61_biquad_same",
    "C61_constant",
    "C61_constant_gain",
    "C61_pole_slope",
    "C61_svf_cutoff",
    "C61_svf_edges"
   ],
   "note": "Over the reals; pinkpass has no simple gain; the level of lowpole at its cutoff is not stated, since the code does not match the cutoff exactly."
  },
  {
   "property": "C62",
   "status": "partial",
   "theorems": [
    "C62_block_refuted",
    "C62_chaos_refuted",
    "C62_dsf",
    "C62_dsf_count_refuted",
    "C62_dsf_top_refuted",
    "C62_dsf_zero_refuted",
    "C62_pluck",
    "C62_pluck_gain",
    "C62_pluck_high_refuted",
    "C62_pluck_reset",
    "C62_pulse",
    "C62_ramp",
    "C62_reset",
    "C62_roughness",
    "C62_saw",
    "C62_set_phase",
    "C62_sine",
    "C62_sine_blocks",
    "C62_square",
    "C62_still_refuted"
   ],
   "note": "Waveforms, ranges, blocks, reset and the string's loop are proved over the reals. The full statement is false of the code: the summation formula has one partial more than documented, the highest above 22050 Hz, and is NaN at 0 Hz; strings above sample rate / 2.2 panic; Rossler and Lorenz diverge at 4000 Hz; a slow binary32 oscillator stands still; binary32 blocks and ticks leave different phases."
  },
  {
   "property": "C63",
   "status": "partial",
   "theorems": [
    "C63_alias_refuted",
    "C63_bandlimited",
    "C63_blocks_partial",
    "C63_blocks_refuted",
    "C63_builds",
    "C63_few_tables_refuted",
    "C63_from_wave",
    "C63_from_wave_refuted",
    "C63_interpolation",
    "C63_low_pitch_refuted",
    "C63_nan_refuted",
    "C63_no_overshoot",
    "C63_partial_level",
    "C63_partial_level_refuted",
    "C63_phase_range_refuted",
    "C63_phase_reset",
    "C63_phase_synth",
    "C63_pulse",
    "C63_rate",
    "C63_read",
    "C63_reset",
    "C63_saw",
    "C63_set_phase",
    "C63_square",
    "C63_synth",
    "C63_tables",
    "C63_triangle"
   ],
   "note": "Proved over the reals: table content, pitches, sizes, normalization, the choice of tables, bandlimit, ticks, resets, phase driven synthesis and pulse, that reading does not overshoot, and how loud each partial is heard. The full statement is false of the code: blocks differ when the frequency changes within 8 samples or near the end of the period, NaN is undefined behaviour, low pitches panic or alias, few tables panic, a wave is played with every partial shifted by a quarter period, and the highest partials are heard at two thirds of their amplitude."
  },
  {
   "property": "C64",
   "status": "partial",
   "theorems": [
    "C64_adaptive",
    "C64_adaptive_bound",
    "C64_blocks_partial",
    "C64_clip",
    "C64_clip_to",
    "C64_clip_to_refuted",
    "C64_crush",
    "C64_crush_refuted",
    "C64_minimum_level",
    "C64_minimum_level_refuted",
    "C64_saturation",
    "C64_soft_crush",
    "C64_softsign_refuted",
    "C64_timescale"
   ],
   "note": "Proved with real arithmetic for all shapes and inputs, adaptive shapes around any shapes among them; that blocks equal ticks is proved except for halfway cases of Crush, negative hardness of Softsign, empty ranges of ClipTo and SoftCrush just below its steps, for the first three of which it is refuted. The minimum level is proved after a reset and refuted for a new shape that has not been reset: the full statement is false of the code."
  },
  {
   "property": "C65",
   "status": "partial",
   "theorems": [
    "C65_forward",
    "C65_long_window_refuted",
    "C65_overlap_add",
    "C65_reconstruct",
    "C65_reset",
    "C65_times"
   ],
   "note": "The full statement is false of the code: window lengths above 32768 are accepted and panic after one window (C65_long_window_refuted). Everything else is proved over the reals, given exact Fourier transforms."
  },
  {
   "property": "C66",
   "status": "partial",
   "theorems": [
    "C66_errors_partial",
    "C66_errors_refuted",
    "C66_rate",
    "C66_sample16",
    "C66_sizes_refuted",
    "C66_wav16",
    "C66_wav32"
   ],
   "note": "The full statement is false of the code: errors in the last 8 KiB are lost (C66_errors_refuted) and waves too large for the header give wrong files (C66_sizes_refuted). C66_errors_partial lacks that Ok means complete, which is false. Reading is by a specification of the format."
  },
  {
   "property": "C67",
   "status": "partial",
   "theorems": [
    "C67_bank",
    "C67_moog_bounded",
    "C67_moog_output",
    "C67_nonexpansive",
    "C67_nonexpansive_refuted",
    "C67_rez_bounded",
    "C67_rez_refuted",
    "C67_shaped_bounded",
    "C67_shaped_linear"
   ],
   "note": "Bounds, the linear case and banks are proved, and stability with nonexpansive shapes where |a1| + |a2| < 1. The full statement is false of the code: in single precision rez at a sixth of the usual sample rates outputs NaN only (C67_rez_refuted; C67_rez_bounded excludes a neighbourhood of that frequency), and shaped filters are not stable with every nonexpansive shape (C67_nonexpansive_refuted)."
  },
  {
   "property": "C68",
   "status": "partial",
   "theorems": [
    "C68_allnest_refuted",
    "C68_held",
    "C68_inputs",
    "C68_panics",
    "C68_ports",
    "C68_repeats",
    "C68_resonator_refuted",
    "C68_settings",
    "C68_shape_rate_refuted"
   ],
   "note": "Agreement of settings, inputs and constructors is proved for all opcodes with settings but resonator_hz, and that units read the inputs they declare. The full statement is false of the code: resonator_hz ignores center_q, allnest_c ignores delay, and shaped biquads do not tell their shapes the sample rate (C68_resonator_refuted, C68_allnest_refuted, C68_shape_rate_refuted)."
  },
  {
   "property": "C69",
   "status": "partial",
   "theorems": [
    "C69_decay",
    "C69_moving_tap",
    "C69_network",
    "C69_rate_refuted",
    "C69_reset_refuted",
    "C69_reverb2",
    "C69_reverb2_delays",
    "C69_reverb2_gain",
    "C69_reverb2_moving",
    "C69_reverb3",
    "C69_reverb3_gain",
    "C69_reverb4",
    "C69_reverb4_count",
    "C69_reverb4_decay",
    "C69_reverb_stereo",
    "C69_runaway_tap",
    "C69_silence",
    "C69_stable",
    "C69_tail"
   ],
   "note": "Energy bounds over real numbers (f32 rounding not modelled; the Hadamard scale is the f32 one), by storage functions and weighted energies. False of the code: reset and set_sample_rate of Reverb skip the pre-diffusers (C69_reset_refuted, C69_rate_refuted)."
  },
  {
   "property": "C70",
   "status": "partial",
   "theorems": [
    "C70_block_refuted",
    "C70_blocks",
    "C70_calls",
    "C70_intervals",
    "C70_ticks",
    "C70_time_stops_refuted"
   ],
   "note": "Schedule proved over real times for all histories. False of the code: blocks are not ticks if an update falls due inside a block (C70_block_refuted); the f32 time stops at 512 s when ticked at 44.1 kHz (C70_time_stops_refuted)."
  },
  {
   "property": "C71",
   "status": "partial",
   "theorems": [
    "C71_latest",
    "C71_nearest_refuted",
    "C71_nonfinite_refuted",
    "C71_plays",
    "C71_readings",
    "C71_safe",
    "C71_tables",
    "C71_timer"
   ],
   "note": "The full statement is false of the code: infinite or NaN frequencies are undefined behaviour, and reading the nearest sample reads the one before. Proved: latest store for every history, timers over the reals, readings and bounds for every phase, safety in binary32 for every history of finite inputs."
  },
  {
   "property": "C72",
   "status": "partial",
   "theorems": [
    "C72_arguments",
    "C72_blocks",
    "C72_hash_refuted",
    "C72_on_time",
    "C72_reset",
    "C72_sequencer",
    "C72_tiling"
   ],
   "note": "Tiling, punctuality, the player's view, helix and arguments, reset, and independence of blocks without jitter are proved. The full statement is false of the code: random phases (and jitter) depend on the sizes of blocks (C72_hash_refuted)."
  },
  {
   "property": "C73",
   "status": "proved",
   "theorems": [
    "C73_declick",
    "C73_gain",
    "C73_in_range",
    "C73_monitor"
   ],
   "note": "Over the reals; the bound on the faded part of a block in rounding arithmetic of any precision (without overflow)."
  },
  {
   "property": "C74",
   "status": "partial",
   "theorems": [
    "C74_channels_refuted",
    "C74_errors",
    "C74_load",
    "C74_rate_refuted",
    "C74_track_refuted",
    "C74_truncated_refuted"
   ],
   "note": "Contents, order, track selection and errors are proved for files whose chunks have the same number of channels. The full statement is false of the code: C74_truncated_refuted, C74_channels_refuted, C74_rate_refuted, C74_track_refuted."
  },
  {
   "property": "C75",
   "status": "partial",
   "theorems": [
    "C75_associative_refuted",
    "C75_constants",
    "C75_interval",
    "C75_net_numbers",
    "C75_numbers",
    "C75_phase",
    "C75_phase_refuted",
    "C75_seed",
    "C75_subsample",
    "C75_subsample_changes",
    "C75_subsample_refuted",
    "C75_subsample_restarts"
   ],
   "note": "Operators with numbers, the equivalence with constants and with add/sub/mul, networks with numbers, phase, seed, interval and subsample are proved. The full statement is false of the code: subsample(p) matters with steady parameters (C75_subsample_refuted), phase() is lost behind a filter (C75_phase_refuted), and bracketing changes pseudorandom generators (C75_associative_refuted)."
  },
  {
   "property": "C76",
   "status": "partial",
   "theorems": [
    "C76_chorus",
    "C76_chorus_bound",
    "C76_chorus_motion",
    "C76_flanger",
    "C76_flanger_bound",
    "C76_flanger_dry",
    "C76_phaser",
    "C76_phaser_refuted",
    "C76_phaser_stable",
    "C76_reset"
   ],
   "note": "Equations, delay ranges, bounds, stability of the steady phaser and reset are proved over the reals, sample by sample. The statement that the phaser has an effect without feedback is false of the code: with amount 0 it passes its input (C76_phaser_refuted). Stability of the phaser while its phase moves, and rounding, are not covered."
  },
  {
   "property": "C77",
   "status": "partial",
   "theorems": [
    "C77_fir3",
    "C77_fractional",
    "C77_fractional_floats",
    "C77_indexed",
    "C77_methods",
    "C77_rotate",
    "C77_sizes_partial",
    "C77_sizes_refuted",
    "C77_unit_methods"
   ],
   "note": "The full statement is false of the code: U90 names the number 80 in all three preludes (C77_sizes_refuted). Everything else is proved; rotation and fir3 over the real numbers."
  },
  {
   "property": "C78",
   "status": "proved",
   "theorems": [
    "C78_bassdrum",
    "C78_bassdrum_decays",
    "C78_bassdrum_pitch",
    "C78_cymbal",
    "C78_cymbal_bounded",
    "C78_cymbal_level",
    "C78_cymbal_pitches",
    "C78_dissonance_max",
    "C78_endless",
    "C78_gen_lfo",
    "C78_pebbles",
    "C78_pebbles_glide",
    "C78_pebbles_level",
    "C78_pebbles_pull",
    "C78_pebbles_self",
    "C78_pebbles_sound",
    "C78_pebbles_start",
    "C78_pebbles_voices",
    "C78_risset",
    "C78_snaredrum",
    "C78_snaredrum_bounded",
    "C78_snaredrum_level",
    "C78_snaredrum_modes",
    "C78_swept",
    "C78_voices",
    "C78_weights"
   ],
   "note": "Over the reals; bassdrum, snaredrum, cymbal, risset_glissando and pebbles as expressions that tick (blocks of their leaves: C49, C62, C63, C73); the coefficient of the followers of pebbles is a parameter (C39). Below 30 kHz the cutoff of the snare drum starts above half of the sample rate, and below 40 kHz that of the cymbal, where the filter is unstable (C85)."
  },
  {
   "property": "C79",
   "status": "partial",
   "theorems": [
    "C79_branch",
    "C79_channelwise",
    "C79_constants_heard",
    "C79_cycle_latency_refuted",
    "C79_filter_latency_heard",
    "C79_latency_heard",
    "C79_pipe",
    "C79_response_heard",
    "C79_route_equations",
    "C79_route_total",
    "C79_stack",
    "C79_thru"
   ],
   "note": "The full statement is false of the code for networks with cycles: C79_cycle_latency_refuted. Everything else is proved; latency and constants assume the analysis of the units to be right (proved for filters, mixers and panners), and numeric meaning is over exact real numbers."
  },
  {
   "property": "C80",
   "status": "partial",
   "theorems": [
    "C80_mean_frequency_refuted",
    "C80_regular",
    "C80_stretches",
    "C80_zero_frequency_refuted"
   ],
   "note": "The stretches, their lengths and the regular case are proved over exact real numbers. The full statement is false of the code: hold times are rounded up one by one, so that the mean rate is below f (C80_mean_frequency_refuted), and a frequency of zero at a sampling moment freezes the node (C80_zero_frequency_refuted, in binary64)."
  },
  {
   "property": "C81",
   "status": "partial",
   "theorems": [
    "C81_bandwidth",
    "C81_center_power",
    "C81_constant_gain",
    "C81_half_band",
    "C81_hertz_refuted",
    "C81_rings",
    "C81_tone_gain_refuted",
    "C81_tone_power"
   ],
   "note": "Over the reals. Proved for every center and Q: impulse response in closed form, noise power gain 1/2, the power of every tone, the peak and the half-power band and its width. The full statement is false of the code: hacker::resonator_hz takes Q where it documents a bandwidth in Hz, and the gain for tones grows with Q."
  },
  {
   "property": "C82",
   "status": "partial",
   "theorems": [
    "C82_combine_refuted",
    "C82_commit",
    "C82_commit_rate",
    "C82_fading_refuted",
    "C82_in_tune",
    "C82_queue_refuted",
    "C82_set_rate"
   ],
   "note": "Proved for all networks whose rate is changed while nothing is faded in and that are combined at equal rates (C82_in_tune), for the playing units of any network given a different rate (C82_set_rate) and for commits (C82_commit, C82_commit_rate). The full statement is false of the code: combining networks of different rates, changing the rate during a crossfade, and changing it while a crossfade waits for a commit each leave units at the old rate (three _refuted theorems)."
  },
  {
   "property": "C83",
   "status": "partial",
   "theorems": [
    "C83_hammond",
    "C83_hammond_partials",
    "C83_mix",
    "C83_mix_saw_cancels_refuted",
    "C83_mix_saw_refuted",
    "C83_no_overflow",
    "C83_octave_part",
    "C83_organ",
    "C83_organ_emphasis",
    "C83_organ_octave",
    "C83_soft_saw",
    "C83_soft_saw_triangle",
    "C83_tables"
   ],
   "note": "Partials, emphasis, freedom from overflow and mixing of organ, soft saw and triangle are proved over the reals with an exact inverse Fourier transform. The full statement is false of the code: saw does not mix with the other three, since its partials 3, 7, 11, ... have the opposite phase (C83_mix_saw_refuted, C83_mix_saw_cancels_refuted)."
  },
  {
   "property": "C84",
   "status": "partial",
   "theorems": [
    "C84_allpole",
    "C84_butterpass_refuted",
    "C84_highpole",
    "C84_highpole_silent",
    "C84_lowpole",
    "C84_lowpole_silent",
    "C84_peak",
    "C84_resonator_refuted",
    "C84_svf_bounded",
    "C84_svf_silent"
   ],
   "note": "Proved for the nine state variable filters (with parameter inputs and with settings), lowpole, highpole and allpole, with decay rates. The full statement is false of the code: resonator and butterpass blow up when their frequency alternates between two values (C84_resonator_refuted, C84_butterpass_refuted). moog, rez are C67."
  },
  {
   "property": "C85",
   "status": "partial",
   "theorems": [
    "C85_biquad_stable",
    "C85_biquad_stable_iff",
    "C85_biquad_unstable",
    "C85_butterpass_above_refuted",
    "C85_butterpass_stable_iff",
    "C85_lowpass_swept_refuted",
    "C85_resonator_stable",
    "C85_svf_above_refuted",
    "C85_svf_stable_iff"
   ],
   "note": "Which cutoff frequencies of the state variable filters and of butterpass_hz are stable is proved exactly, and so is which biquads are. The expectation that the filters are stable at every cutoff frequency is false of the code: see the refuted theorems. Over the real numbers. The parameters at which coefficients divide by zero or a zero and a pole cancel are excluded."
  }
 ]
}