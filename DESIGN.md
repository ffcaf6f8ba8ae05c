# Formal model of fundsp in Rocq (Coq 8.16.1)

Source: `/repo` (Rust, read as text only). Model and proofs: `rocq/theories/`.
Properties: `properties.jsonl` (C01...). Status per property: `MANIFEST.json`.
Seeded wrong programs: `seeded/LOG.jsonl`.

## 1. Approach

Every area has the same file layout:

* `<Area>Model.v`: executable definitions only. Each cites the `/repo` file and lines it models and states its simplifications.
* `<Area>Spec.v` (where needed): the small independent specification used in theorem statements.
* `<Area>Proofs.v`: lemmas.
* `<Area>Properties.v`: only the property theorems, closed by `exact`, with `Print Assumptions` and non-vacuity `Example`s.

Three kinds of number model are used:

1. **Structural properties** (routing, ordering, buffering, tick versus block processing). The sample type
   and its operations are arbitrary (section variables generalised in the closed theorem). The result
   holds for f32, bit for bit, without any assumption on the arithmetic, unless a hypothesis such as
   `0 + x = x` is written in the theorem.
2. **Algebraic laws and bounds** (easing, splines, followers, limiter gain, Hadamard, event timing). Exact
   rationals `Q`, integers `Z` or reals `R`. Rounding of f32/f64 is not modelled; each comment says so.
3. **Bit-level properties** (hashes, MLS, masks, id generator). `N`/`Z` with explicit `mod 2^k`. Where rounding is the point,
   `Coq.Floats.SpecFloat` (binary32/binary64 as pure `Z` computations, no axioms).

A panic or debug overflow is an explicit error value (`None`/`Err`). Loops that are not structurally recursive use fuel with an
explicit out-of-fuel result that the theorems exclude.

When the faithful model violates a property, the theorem is named `..._refuted` and proves the existence of a concrete
counterexample; what does hold is proved beside it. Those are findings (section 4).

## 2. Trusted base

* Coq 8.16.1 kernel (and `coqchk`).
* Axioms: what `Print Assumptions` prints under each property theorem in the `*Properties.v` files. The aim is
  "Closed under the global context"; theorems over `R` use the standard library's real-number axioms
  (`ClassicalDedekindReals.sig_forall_dec`, `sig_not_dec`, `functional_extensionality_dep`). Section 6 lists them per theorem.
* The reading of the Rust source: nothing here runs the code. `wide`, `thingbuf`, `typenum`, `numeric_array`, `funutd`,
  `atomic_float` are external; their assumed behaviour is stated where used (SIMD lane-wise operation equals scalar
  operation; `thingbuf::mpsc` is a bounded FIFO; atomics are sequentially consistent).

## 3. Plan per property

| id | model | proof |
|----|-------|-------|
| C01 | `Net::determine_order_in` with counters and recursive propagation over a list of vertices | output is a permutation; reverse Kahn invariant; success iff acyclic |
| C02 | all edit operations as `step : net -> op -> option net` | invariant by induction over op lists |
| C03 | `remove_2` with swap-remove | connection map before and after related through ids |
| C04 | `tick_2` over abstract units | unfold along the order; fixpoint of the dataflow equations |
| C05 | `process_2` with buffers and `source_vertex` | simulation of `n` ticks, induction over the order |
| C06 | `pipe`, `stack`, ... on networks | compositional semantics lemma for disjoint union of graphs |
| C07 | `check` as a boolean function | refutation witness; proved for freshly ordered nets |
| C08-C10 | frontend/backend pair with message queue, schedule as list of actions | refinement / refutation witnesses |
| C11, C12 | `Vertex::tick/process` over Q fades; `DummyUnit::process` on 64-sample channels | phase invariant; witness |
| C13-C17 | `Sequencer` with events in ready/active/past lists, time in Q | invariant, timing theorem, witnesses |
| C18, C19 | deep embedding of AudioNode expressions with abstract leaves | induction on expressions |
| C20, C45 | `set` routing and `ping` order on the same expressions | induction on expressions |
| C21 | `SettingListener` with default `set` | witness, universally quantified refutation |
| C22-C24 | `Delay`, `Tap`, `TapLinear`, `Feedback`, `FeedbackUnit` rings | history invariant; for tones the remainders of Taylor series |
| C25 | adapters over abstract unit | stream simulation |
| C26 | `ReduceBuffer` tree | tree invariant over an arbitrary commutative monoid |
| C27, C28, C39 | `Limiter`, `AFollow`, `Follow`, meters over Q; for C28 also every combinator and the nodes of the other models as units | convexity invariants, witnesses; C28 by relating expressions whose units cannot be told apart, and a normal form of each kind of unit that leaves out what its inputs overwrite |
| C29-C32 | `Wave`, `WavePlayer`, `render` | invariant over edits, list specifications |
| C33-C35 | bit-level N models | GF(2)-linear order argument; inverse functions |
| C36 | atomics as interleaved steps | sequential uniqueness; concurrent refutation by induction |
| C37, C38, C44 | polynomials over Q / R | nra / factorisation, butterfly induction |
| C40-C42 | queues and schedules | FIFO refinement |
| C43 | buffer index arithmetic | bijection of (channel, index) and (word, lane) |
| C46 | `Signal`, `Routing` | algebraic laws |
| C47 | `Fir`, `Mixer`, `Panner` | history invariant, sums |
| C48, C50 | `Resampler`, `Oversampler` with their rings of 128 samples, over an arbitrary enclosed node | ring invariant against a stream specification over R |
| C49 | `Envelope`, `EnvelopeIn`, `adsr_live` over an arbitrary number type | segments as lines over R; binary32 findings through the link between `SpecFloat` and rounded reals (`FloatLink.v`) |
| C51 | `Limiter` output | gain bound from C26 and C39 lemmas; refutation for every limiter |
| C52, C53 | edit operations of C02 with unit states | what each edit changes, stated on connection maps |
| C54 | `AllNest` over R | energy function |
| C55 | `Wave` levels and fades | list specifications over R, witnesses in binary32 |
| C56 | `Vertex::enqueue`, `next_phase` | schedule invariant |
| C57, C58 | math functions over R, with exp/ln of the standard library | real analysis |
| C59 | `Slot` and sample rates | invariant, refutation |
| C60 | transfer functions of filters over Coquelicot's complex numbers | steady-state response to sinusoids equals the reported response |
| C61 | filter design formulas | evaluation at 0, cutoff and Nyquist |
| C62 | `oscillator.rs`: sine (ticks and blocks), ramp, poly saw/square/pulse, DSF, pluck, Rossler, Lorenz, over a record of operations; trigonometric functions and the random generator are parameters | induction over the inputs on R, with the phase modulo 1; invariant of the string's line; for the findings, binary32 by FloatLink and computation |
| C63 | `wavetable.rs`: construction (partials, pitches, normalization, `from_wave`), reading with hints, `WaveSynth` ticks and blocks, `PhaseSynth`, `PulseWave`; the Fourier transforms are parameters specified by their sums | induction over the inputs and the search on R; sums of partials by the sum formula; binary32 computation and NaN propagation for the findings |
| C64 | `shape.rs`: all shapes with their scalar and word functions, `Adaptive` nested in any way, `Shaper` in ticks and blocks; tanh, atan, root and power are parameters | real analysis of each shape; induction over the shape and the input for blocks and for the level estimate; binary32 witnesses for the differences |
| C65 | `resynth.rs` all, with the functions of `fft.rs` around its transforms; the Fourier transforms are parameters, taken to be exact; processing functions are arbitrary with a state | invariant over ticks of the four windows; sums of cosines for the inverse transform and for the overlap of squared Hann windows; the panic follows from the same invariant |
| C66 | `write.rs` all but opening files, with `BufWriter` and a device that can fail at any byte of any flush; both ways of compiling overflows; samples as binary32 | invariant over the calls of `write_all` (bytes got and buffered are a prefix of the file); an independent reader of WAV files as specification; Flocq for the rounding of samples |
| C67 | `moog.rs`, `rez.rs`, `biquad_bank.rs` and the four biquads with shapes in `biquad.rs`, with settings, sample rates and resets; shapes and tanh are parameters | invariants over histories with explicit bounds from `tanh` in (-1, 1) and contraction of the one-pole stages; simulation of each lane by a biquad; binary32 computation and a bound of the sine for the refutation |
| C68 | constructors, `set`, `set_sample_rate`, `reset` and `tick` of 19 opcodes with settings; a specification of what the documentation lists for each (`documented`) | relation between a node and its parameters kept by each action; simulation between the node with inputs and the node with settings |
| C69 | `fdn`, `reverb_stereo`, `reverb2_stereo`, `reverb4_stereo`, `reverb4_stereo_delays` as expressions over delay, tap, allpass, FIR and panner nodes; `Reverb` with an arbitrary loop filter | weighted energy: a gain calculus for pipes, stacks, splits, joins and feedback through an orthogonal matrix; for `Reverb` a storage function that counts the energy in every delay line, kept by ticks, resets and rate changes; for moving taps a potential that bounds what each stored sample may still add to the output |
| C70 | `System` with an arbitrary enclosed unit and an update function with state | refinement: the node plays like a reference that counts samples, by an invariant between times and sample counts; for binary32 a descent argument on the time (from C49) |
| C71 | atomic numbers as cells of a memory, acts of threads on them in any order, timers, tables whose contents may differ from load to load, the synthesizer in any arithmetic | invariant between the memory and a specification that looks back through the history; `reading` over the reals; in binary32 intervals for every operation (floor is exact, `x - floor x` is in 0...1) |
| C72 | the synthesizer over any texture, generator, random numbers and sequencer; the loop of one voice has fuel | invariant between the log of calls to the sequencer and the next times of the voices; any sequencer is a replay of the log; tilings with the same lengths are equal; refutation by hand on rationals |
| C73 | meters, monitors, declickers in any arithmetic | readings as functions of the ages of samples; the state is compared with them along the history; faded part of a block by monotonicity of rounding (Flocq) |
| C74 | `decode` over anything that Symphonia may return: tracks, packets, chunks, errors | the wave so far is the join of the chunks so far, by induction on packets; refutations by computation |
| C75 | operators with numbers as `Unop`, networks with `scalar` and `combine_binop`, builder methods as settings on expressions over a unit type of all oscillators and noise generators; `Svf::tick` from C68 | laws of streams from C06 and C18; two nodes that differ in unused hashes only play the same; induction on inputs with the counter of readings; refutations by computation and by real analysis |
| C76 | chorus, flanger and phaser as expressions of `NodeModel` over envelopes, taps, `Tanh` and allpole leaves | equations by induction over samples with the history that the delay line holds; bounds from the overshoot of the spline and tanh; the phaser through the energy that the ten allpass filters store; slopes of splines, noise, octaves and envelopes for the motion of the delays. |
| C77 | `PreModel`: the opcodes of `prelude.rs` that build many nodes, the size names, `rotate`, `fir3`, the single-sample methods | indexed opcodes from the C19 laws; fractions over R and, with Flocq, in f64 and f32; rotations and `fir3` by trigonometry; methods by induction on the calls; U90 refuted |
| C78 | the bass drum, the snare drum and the Risset glissando as expressions over envelopes, sine oscillators, noise, filters, panners and the declicker; pebbles with its update function; `a_weight`, `m_weight`, `dissonance_max`, the control functions of `gen_lfo` | each leaf's state at sample n in closed form, then induction on samples; the pieces of the envelopes from C49; remainders modulo 40 for the voices; rational bounds of square roots and exponentials |
| C79 | `Net::route`, and `latency` and `response` of a network | the labels solve the equations of the graph and are the only solution (induction along the evaluation order); each node hears the streams of its sources (induction on time), so a meaning of labels that the units respect holds at the outputs; combined networks reuse the graph lemmas of C06 |
| C80 | `Hold` (hold, hold_hz) over reals, and in binary64 for frequency zero | induction over the stretches of the output; the regular case from the stretches by arithmetic of division; in binary64 the clock stays finite by monotone rounding |
| C81 | `BiquadCoefs::resonator`, `Resonator`, and what `resonator_hz` of the preludes passes to it, over reals | closed form of the impulse response by its recurrence; the energy still to come is a quadratic form of the state that telescopes; the level at a quarter of the sample rate by complex arithmetic |
| C82 | the sample rate of a `Net`, and the units it is passed to by `push`, `replace`, `crossfade`, `fade_in`, `set_sample_rate`, the operators and `commit`, over the networks of C10 and the crossfading vertices of C28 | invariant over all ways to make a network: a ghost function gives the rate of a unit, and only `set_sample_rate` changes it; counterexamples with units that output their sample rate |
| C83 | phases and amplitudes of the organ, soft saw and Hammond tables | a number is a power of two times an odd number; partials as sums; the tables themselves from C63; mixing by comparing phases |
| C84 | nothing new: the filters of C60 and C67 with inputs and settings | a quadratic form of the state, the same for all parameters within the ranges, loses a constant fraction per sample; one-pole filters by convexity; blow-ups by the signs of successive outputs |
| C85 | nothing new: the filters of C60 and C84 above half of the sample rate | the outputs after an impulse satisfy a second order recurrence with a quadratic invariant that is multiplied by the determinant, above one, every sample; for a moving cutoff the step is the inverse of a step below half of the sample rate, so the form of C84 grows; for biquads a complex combination of the state is multiplied by the pole every sample, and an input of +-1 chosen by the sign of its projection makes it grow if the pole is not inside the unit circle |

## 4. Findings

Each is a theorem about the model: a concrete history, or every history of a kind, in which the code does not do what the property (or its documentation) says.

* `C02_remove_link_refuted`: Two calls of Net::remove_link on a loop of two nodes leave a connection to a node that does not exist, and the next tick panics.
* `C07_check_after_pipe_refuted`: Net::check also panics after combining with a network that has been played.
* `C07_check_after_remove_refuted`: After tick(), removing the first of two nodes makes check() panic, although the network is consistent.
* `C08_full_channel_refuted`: C08 fails when the channel is full: whatever its capacity, there is a history in which a commit returns normally and its network never reaches the backend, nor do the edits it carried.
* `C09_new_node_refuted`: C09 fails for a node that is new in a network waiting with the setting: it is set after its commit, and after the poll the backend plays it with the value it had before.
* `C10_reset_refuted`: C10 fails later too: when the frontend is reset and committed after the fade has ended, the placeholder comes back.
* `C10_skipped_fade_in_refuted`: C10 fails: with a second commit before the poll, a node that was faded in stays the silent placeholder. Nothing is left in the channel or in the edit queue of the frontend that could start the fade.
* `C11_f32_length_refuted`: In f32 arithmetic neither mode keeps the length: a crossfade of 12 samples takes 13 ticks, and one of 3 samples, in blocks of one sample, takes 2.
* `C11_queued_refuted`: If another crossfade is queued behind the current one, ticks start it at once but blocks only at the next block.
* `C12_fade_in_refuted`: But during a fade-in the buffer holds the previous block. Fading in the constant 1 over 128 samples in two blocks of 64 outputs, at sample 84, the previous block's value on top of the fade-in, where ticks output the fade-in alone.
* `C13_halfway_refuted`: An event that ends halfway between two samples plays one sample longer in a block.
* `C15_fade_in_refuted`: An event that starts and ends its fade in inside one block is amplified there: the fade goes on past its end.
* `C15_fade_out_refuted`: An event that starts and fades out inside one block fades out too late.
* `C15_negative_refuted`: A fade in from a time between two samples may start with a negative weight.
* `C15_panic_refuted`: In f64 there is an event that plays sample by sample, and panics in a block.
* `C16_past_end_refuted`: An edit that moves the end of an event that has not started to the past is ignored: the event plays in full.
* `C16_revived_refuted`: An edit after the end of an event revives it if the event ended within the last block.
* `C17_reset_refuted`: A push that follows a reset in the same batch is undone by the reset.
* `C18_join_rounding_refuted`: In binary32 the block output of a three-input join differs from the ticked output (1, 0, 4).
* `C18_multibus_sign_of_zero_refuted`: In binary32 a multi-bus turns -0.0 into 0.0 when ticked but not in blocks.
* `C18_thru_generator_refuted`: !x with a generator x: ticking advances x, processing a block does not touch it.
* `C21_dial_refuted`: A node that puts out the value it is set to: set directly, and through the listener.
* `C21_dropped_refuted`: SettingListener: whatever settings are sent and whenever, the node plays as if none had been sent.
* `C21_reset_refuted`: REFUTED: settings sent before a reset are in force after it. They are taken from the queue by the reset, and they are lost.
* `C23_linear_blocks_refuted`: A new line for delays up to 1.4 ms at 44.1 kHz, fed ones: ticks give silence for the first eight samples, as they should, but the block gives samples that are not due yet (the first ones).
* `C27_limiter_amplifies_after_reset_refuted`: C27 / C28 fail after reset(): for every look-ahead and every coefficient a limiter can have (see C39_coefficient_range), a signal of constant level 1/2 is amplified after a reset.
* `C28_subsample_refuted`: REFUTED: a filter with inputs for its parameters starts again after reset(), whatever its subsampling period. Svf::reset (svf.rs:822-826) keeps the parameters that were read last; with a period of 2 or more the first samples after a reset are filtered with them, while the first samples of the new filter were filtered with those of its constructor.
* `C29_append_refuted`: Appending a wave without channels to a wave without channels, whose numbers of channels match, panics.
* `C30_beyond_refuted`: A span which starts beyond the end overlaps nothing, but retain panics.
* `C30_longest_refuted`: A span from the beginning with the greatest possible length covers the wave, but retain empties it.
* `C32_latency_refuted`: A node with a lag of one second, at a sample rate of 3, rendered at a sample rate of 1 has one frame of latency, but three are dropped: the wave begins with the third sample of the sound.
* `C32_reset_refuted`: render_latency does not reset the node, which its documentation promises: from a node that has played it takes up where it was.
* `C36_duplicate_refuted`: A thread that is overtaken by 0xfff00000 others returns an id that was already returned.
* `C37_range_f32_refuted`: In f32 the smooth curves of degrees 5, 7 and 9 exceed 1 for some x in [0, 1].
* `C38_mono_refuted`: Whenever the data fall twice in a row, spline_mono overshoots: it starts by rising.
* `C39_follow_jump_refuted`: REFUTED: a follower moves smoothly from the value it was told to jump to. If it has not heard a sample since it was made or reset, the value is forgotten: the first output is the first input, however far it is from the value.
* `C39_halfway_refuted`: The documentation says that the smoothing timescale is the time it takes for level estimation to move halfway to a new level. The RMS level takes less: after that time it is the square of the level that is halfway, and the level is at 0.7 of a new level that comes after silence.
* `C39_overflow_refuted`: A finite sample whose square overflows (any of magnitude 2^64 or more) makes the RMS level infinite, and no silence that follows brings it back: in binary32, with any smoothing of 0.5 for one.
* `C40_overflow_refuted`: With 1024 blocks unread, a finished block is lost by a snoop.
* `C40_unfinished_refuted`: The latest samples, up to 63, are not shown by a snoop.
* `C42_dropped_refuted`: When a crossfade is under way, another unit waits behind it and 1024 updates wait, the returned units fill their channel, and the audio thread itself drops those that end next.
* `C42_refused_refuted`: set while 1024 updates wait: the update is dropped silently, and the unit that was set last never plays.
* `C46_limiter_constant_refuted`: The analysis says that a limiter passes a constant unchanged; it starts with silence and ends with a lower value.
* `C46_limiter_lookahead_refuted`: A limiter reports its look-ahead as latency, but its gain follows the input at once: the inputs 1 0 0 and 1 0 4 are the same before time 2, the latency is 2, and the outputs differ at time 2.
* `C46_pipe_sum_refuted`: A pipe into a unit with Routing::Arbitrary(w), w > 0, and several inputs, such as the resynthesizer, counts w once for every input in its latency.
* `C46_stack_constants_refuted`: Two constants 3 and 5 through a stack of two splitters: the analysis says that output 1 is 5, but it is 3.
* `C46_stack_panics_refuted`: The latency of a stack of two reversers of two channels cannot be asked for: the call panics.
* `C47_fir_refuted`: The FIR filter applies its weights in reverse: it is not the convolution with them.
* `C48_start_refuted`: At speed 1 the first two frames of the generator are not heard: the source is reproduced from its third frame on, not from its first, nor from its second as the code says.
* `C49_adsr_reset_refuted`: Reset does not take the live ADSR back to its start: after a key press that was not the first event, its first sample after reset with the key held is negative.
* `C49_adsr_silent_refuted`: The live ADSR sounds although the control has been zero from the start.
* `C49_blocks_float_refuted`: In binary32 an envelope in blocks differs from the same envelope ticked.
* `C49_blocks_short_refuted`: The same for intervals shorter than a sample.
* `C49_clock_stops_no_input_refuted`: The same for an envelope without input.
* `C49_clock_stops_refuted`: With binary32 times, as in the live ADSR, the time of an envelope that is ticked stops at 512 seconds. From then on the control function is not called, and the input has no effect.
* `C49_rate_change_refuted`: The sample rate cannot be changed in the middle of a segment: E(t) = t gives 2 sd at time sd + sd'.
* `C49_zero_interval_refuted`: With an interval of zero, which can be set, processing a block does not end.
* `C50_minimum_phase_refuted`: The weights are documented as a minimum phase filter, whose energy is at its start. The code applies them in reverse: an impulse reaches the enclosed node, here one that records what it is given, with twice the last weight, not with twice the first, which is fifty times larger.
* `C50_route_refuted`: The oversampler reports the response of the enclosed node: for a pass-through, no delay and gain 1 at every frequency, so an impulse should come out at once and with its height. Its first sample comes out smaller than a hundred thousandth, whatever follows it.
* `C51_limiter_passes_first_peak_refuted`: C51 ("signal limited to -1...1") fails: an initial peak of any height M passes undamped through any limiter.
* `C52_edit_restarts_noise_refuted`: White noise starts over when an unrelated output of a playing network is disconnected.
* `C55_normalize_refuted`: In binary32 a very quiet wave is turned into an infinity and a NaN.
* `C57_average_refuted`: In f64 softmix of 1 and 1 with bias 0 is not 1 (in f32 it is).
* `C59_rate_refuted`: A slot at 48 kHz that is passed a unit at the default rate of 44.1 kHz plays it at 44.1 kHz.
* `C60_morph_refuted`: The response that the morphing filter reports is not that of its output.
* `C60_set_gain_refuted`: FixedSvf::set_gain changes the response that is reported, but not the sound.
* `C62_block_refuted`: Processing a block should leave the state that ticks leave. In binary32 it does not: here the block has 8 samples of 5000 Hz.
* `C62_chaos_refuted`: The dynamical systems should stay bounded. At 4000 Hz and a sample rate of 44100 Hz, 24 samples after they start (with hash 0) they put out NaN, and they do so forever, at all frequencies.
* `C62_dsf_count_refuted`: The documentation of the formula says `0..n`. The sum has the term of n, too, for all arguments; it is not the sum without it.
* `C62_dsf_top_refuted`: The highest partial is meant to be below 22050 Hz. The highest partial of the saw is above, for all frequencies.
* `C62_dsf_zero_refuted`: At frequency 0 an oscillator should stay where it is. The summation formula oscillator, in binary32, puts out NaN in all states, for all functions sin that are NaN at infinity and NaN.
* `C62_pluck_high_refuted`: A node should not panic on a frequency below half of the sample rate. A string of more than sample rate / 2.2 panics in its first sample, whatever its input and its other parameters.
* `C62_still_refuted`: An oscillator of positive frequency should run. In binary32, at a phase of 1/2 to 1 and a frequency of less than 2^-25 of the sample rate, its state never changes again.
* `C63_alias_refuted`: Pitches below 22000/4096 Hz have more partials than half the samples of the largest table, and the upper ones become others: partial i sounds as partial 8192 - i does, with the sign changed.
* `C63_blocks_refuted`: In a block a synthesizer chooses the tables of 8 samples by the first of their frequencies: if the frequency changes within them it puts out other samples than ticks do (here, with binary32 numbers, less than a third; if the frequency rises it plays partials above 22000 Hz).
* `C63_few_tables_refuted`: If the number of tables per octave leaves room for only one or two tables, the wavetable is made but every attempt to play it panics.
* `C63_from_wave_refuted`: So the wave is not what is played: of the wave 1, 0, -1, 0, whose first sample is its largest, every table starts with 0.
* `C63_low_pitch_refuted`: A lower pitch than 22000/8192 Hz panics if partial 8192 has an amplitude: there are more partials than samples.
* `C63_nan_refuted`: A frequency that is not a number is undefined behaviour for every table and state: the phase becomes NaN, which is converted to an index by an unsafe function that requires it to be in range ("we know phase is in 0...1"). No function that the caller uses is unsafe.
* `C63_partial_level_refuted`: REFUTED: a partial of a wavetable is heard with the amplitude that the table gives it (wavetable.rs:24-38, 54-58: "Target at least 4x oversampling when choosing wave table length"). The interpolator is meant for signals that have been emphasized at high frequencies to make up for what it takes away, and the tables are not: partials near a quarter of the table's length are heard at less than 0.66 of their amplitude (-3.7 dB). The example is partial 15 of the table for 1300 Hz, at 19500 Hz; at 10000 Hz about 1 dB is lost.
* `C63_phase_range_refuted`: The phase output is documented to be in 0...1. In blocks it can be negative: the floor of a vector of numbers is that of the next integer for numbers just below it.
* `C64_clip_to_refuted`: Clipping to a minimum above the maximum panics in ticks (and in the last samples of a block) but not in the full words of 8 samples of a block.
* `C64_crush_refuted`: Crush rounds halfway cases away from 0 in ticks and to the even step in blocks: half a step is 1 in ticks and 0 in blocks, whatever tanh, atan, roots and pi are.
* `C64_minimum_level_refuted`: A new adaptive shape that has not been reset starts from a level of 0, not from that of reset: it divides small first samples by less than the documented minimum of -60 dB.
* `C64_softsign_refuted`: With negative hardness softsign has a pole in blocks: of 1/2 with hardness -2 it is -1/2 in ticks and minus infinity in blocks.
* `C65_long_window_refuted`: The resynth opcode (prelude.rs) is documented to take window lengths that are "a power of two and at least four". All longer powers of two are accepted too, and nothing fails for one whole window; but then the transform, which is there for at most 32768 samples, panics in the audio thread.
* `C66_errors_refuted`: Errors are lost: the buffered writer is dropped without a flush, and the bytes in it are written then, ignoring errors. All files of up to 8192 bytes are reported to be written, whatever happens (a full disk, for example): here nothing at all is written, and the result is Ok.
* `C66_sizes_refuted`: Waves that are too large for the format (4 GiB of data, or frames of 64 KiB) are written without an error, to a file whose header does not describe it; or, if overflow checks are on, some of them panic.
* `C67_nonexpansive_refuted`: REFUTED: "The filter is stable when `shape` is nonexpansive" (prelude.rs:2874-3080 on dbell, dbell_hz, fbell, ... fresonator_hz). Shapes that do not increase distances can make the outputs grow without bound: the absolute value does in dlowpass_hz (the states, all positive, add up where they would cancel), and negation in flowpass_hz (the poles of the filter move outside of the unit circle). The input in the proof has two samples that are not zero.
* `C67_rez_refuted`: REFUTED: `lowrez_hz` and `bandrez_hz` work for every cutoff frequency below half of the sample rate. The feedback is q + q / (1 - f) with f = 2 * sin(PI * cutoff / sample_rate), and f is 1 where the cutoff frequency is a sixth of the sample rate (rez.rs:41-46). In single precision (`hacker32`) the sine that comes out nearest to the true one is exactly 1/2 at 8000 Hz and a sample rate of 48 kHz, at 7350 Hz and 44.1 kHz, and at 16000 Hz and 96 kHz: the feedback is then infinite, and every output is NaN from the first sample on, whatever the input is, even after a reset.
* `C68_allnest_refuted`: REFUTED: README.md:950 lists the setting `delay` for `allnest_c`. AllNest takes the setting `coefficient` only (delay.rs:360-364); a setting `delay` leaves it as it is.
* `C68_resonator_refuted`: REFUTED: README.md:982 lists the setting `center_q` for `resonator_hz`. Resonator has no function `set` (biquad.rs:334-385), so that settings do nothing: the filter keeps the center and Q with which it was constructed, and its output is not that of the resonator with the new parameters.
* `C68_shape_rate_refuted`: REFUTED: a filter with a shape adapts to the sample rate. `set_sample_rate` of FbBiquad, FixedFbBiquad, DirtyBiquad and FixedDirtyBiquad computes new coefficients but does not call `set_sample_rate` of the shapes (biquad.rs:535-538, 678-681, 745-748, 898-901), as Shaper does (shape.rs:228-230). A shape Adaptive keeps the smoothing for 44.1 kHz, so that its time scale is wrong by the factor of the sample rates: at 88.2 kHz the output is not that of the filter whose shape knows the sample rate.
* `C69_rate_refuted`: A sound should not depend on the sample rate. `set_sample_rate` of reverb3_stereo forgets the same filters: they keep the number of samples that they had at 44.1 kHz, so that at every rate from there up the second sound comes after 245 samples, at 88.2 kHz in half the time.
* `C69_reset_refuted`: `reset` is documented to return a unit to its initial state, in which silence in gives silence out. It forgets the two pairs of allpass filters that the input of reverb3_stereo goes through first: an impulse, 244 samples of silence, a reset, and the next sample of silence is not silent.
* `C70_block_refuted`: Processing blocks does not equal ticking otherwise: a system whose function is to be called for every sample (dt = 0) is called once for a block.
* `C70_time_stops_refuted`: Times are binary32 numbers. Ticked at 44.1 kHz, the time that the function is given stops at 512 seconds, so that from then on the node plays as if the function depended on nothing else.
* `C71_nearest_refuted`: `AtomicTable::read_nearest` does not read the nearest sample: it reads the sample at or before the phase, however close the next one is.
* `C71_nonfinite_refuted`: A frequency that is infinite or NaN makes an atomic synthesizer convert NaN to an index with `to_int_unchecked`, which is undefined behaviour in safe code; frequencies are audio inputs, so this is in reach of any graph that divides by zero.
* `C72_hash_refuted`: Blocks matter: random numbers are drawn voice by voice within a block but in order of time with ticks, so that grains at the same time in the same voice get other random phases (and, with jitter, other points of the texture), and the output of a granular synthesizer depends on the sizes of the blocks it is asked for.
* `C74_channels_refuted`: A file whose number of channels grows from one packet to the next makes loading panic, instead of returning an error.
* `C74_rate_refuted`: A file whose sample rate changes from one packet to the next is loaded at the first rate, without conversion or error: the samples of the other chunks play at a wrong speed.
* `C74_track_refuted`: A track that is asked for but does not exist is not an error: another one is loaded.
* `C74_truncated_refuted`: A read error in the middle of a file is not reported: what has been read so far is returned as if it were the whole.
* `C75_associative_refuted`: REFUTED: the operators are associative (README.md:302 and 377) for expressions with pseudorandom generators. The hash that is given to each generator (ping, audionode.rs:846, 1178, 1300, ...) depends on how the expression is bracketed: the noises of (noise() | noise()) | noise() and of noise() | (noise() | noise()) are different.
* `C75_phase_refuted`: REFUTED: phase() sets the initial phase of an oscillator expression such as saw_hz(f) >> lowpole_hz(c). An::phase (combinator.rs:262-266) sends the setting to the right of a pipe, for x_hz(f) = constant(f) >> x(); in oscillator >> filter the right is the filter, which ignores the setting; the oscillator keeps its pseudorandom phase. Only the reset takes place.
* `C75_subsample_refuted`: REFUTED: the subsampling period does not matter when the parameters do not change. In Svf::tick (svf.rs:835-842) the counter goes from 0 to the period before the first reading, so that the first period - 1 samples are filtered with the cutoff frequency, Q and gain of the constructor (440 Hz and 1 for lowpass()), not with those of the inputs.
* `C76_phaser_refuted`: REFUTED: that the amount of feedback sets the feedback alone, so that with none of it the phaser still phases, as the flanger does. phaser(0.0, f) passes its input unchanged for every f: prelude.rs:2724-2733 multiply the filtered signal by the amount before both the feedback and the output.
* `C77_sizes_refuted`: REFUTED: it is not so for all k. The three preludes define the type U90 as the number 80, so split::<U90>() has 80 outputs, and busi::<U90, _, _>, stacki and their kin build 80 nodes.
* `C79_cycle_latency_refuted`: REFUTED: "a latency of None says that the outputs do not depend on the inputs, for every network". In a network with a cycle the nodes that come before their sources in the order are analysed on unknown labels: a delay that reads a mixer of itself and the input reports no latency, but the input comes out two samples later. error() reports the cycle, and the documentation of latency does not mention it.
* `C80_mean_frequency_refuted`: REFUTED: the input is sampled f times a second. Hold::tick (noise.rs:292-304) computes the next time from the time at which it sampled, not from the time at which it was to sample, so that every hold time is rounded up to a whole number of samples and the errors add up. At a frequency of 3/8 of the sample rate, 48 samples hold 16 values instead of 18.
* `C80_zero_frequency_refuted`: REFUTED: sampling goes on once the frequency is positive again. If the frequency input is 0 when the input is sampled (noise.rs:292-304), the next time is infinite, and the output keeps that sample for ever, whatever the frequency is later, until reset. A node whose frequency comes from a control that starts at 0 never samples again. Stated with the times in binary64, at the default sample rate.
* `C81_hertz_refuted`: REFUTED: `hacker::resonator_hz(center, bandwidth)` and its hacker32 twin document a bandwidth in Hz ("Constant-gain bandpass resonator with fixed `center` frequency (Hz) and `bandwidth` (Hz)", hacker.rs:522-533, hacker32.rs:522-533; likewise Input 2 of `resonator`), but pass the number on as Q (biquad.rs:48-57). With a "bandwidth" of 5 Hz around 11025 Hz at 44.1 kHz, a tone 551 Hz away still has more than half of the power of a tone at the center; the band is about center / bandwidth wide, so that a greater bandwidth makes it narrower.
* `C81_tone_gain_refuted`: REFUTED: "The overall gain of the filter is independent of bandwidth" (biquad.rs:44-47) holds for noise (C81_constant_gain), not for tones: the gain at the center grows without bound as the band narrows.
* `C82_combine_refuted`: REFUTED: "After set_sample_rate all units of a network run at that sample rate." The operators on networks take over the units of the second network with the sample rate they have, while the result reports the sample rate of the first, and set_sample_rate does nothing when the rate it is given equals the one reported. A network at 48000 Hz plus one at the default 44100 Hz, told to run at 48000 Hz, keeps units at 44100 Hz, so that the sum of two units that output their sample rate is 92100.
* `C82_fading_refuted`: REFUTED: "A change of the sample rate of a network reaches all its units, even during a crossfade." set_sample_rate passes the rate to the unit that is faded out only. The unit that is faded in keeps the old rate, also when it has replaced the other: setting the same rate again does nothing.
* `C82_queue_refuted`: REFUTED: "A commit sends units at the sample rate of the frontend to the backend." A crossfade made before the change of the rate waits in the queue of edits, which set_sample_rate does not look at; it is then sent with the old rate.
* `C83_mix_saw_cancels_refuted`: REFUTED: whatever the loudness x and y of the two waves, and for each of the partials 3, 7, 11, ... there is a mix of a saw wave with an organ, soft saw or triangle wave in which the partial is absent though both waves have it.
* `C83_mix_saw_refuted`: REFUTED: the organ and soft saw tables "set phase to enable interpolation with saw, triangle and soft saw wavetables" (wavetable.rs:566, 594), but not with saw: partials 3, 7, 11, ... of a saw wave have phase 0 and those of the other three waves phase 1/2, so they cancel.
* `C84_butterpass_refuted`: REFUTED: butterpass, whose input is a cutoff frequency, stays bounded while its cutoff frequency moves between 6000 and 18000 Hz. At 48000 Hz alternating between them from sample to sample makes an impulse grow by 11 / 9 every two samples without end. The state variable filters (lowpass, ...) stay bounded under the same modulation.
* `C84_resonator_refuted`: REFUTED: resonator, whose inputs are a center frequency and Q, stays bounded while its center frequency moves between 8000 and 16000 Hz. At 48000 Hz with Q = 10, where it is stable at either frequency, alternating between them from sample to sample makes an impulse grow by more than 1.2 every two samples without end: its output is kept in the past outputs of the direct form, not in a state the coefficients are safe to change around.
* `C85_butterpass_above_refuted`: REFUTED: butterpass_hz stays bounded at every cutoff frequency. It has the same range (biquad.rs:32-34).
* `C85_lowpass_swept_refuted`: REFUTED: lowpass, whose inputs are a cutoff frequency and Q, stays bounded while its cutoff frequency moves. Above half of the sample rate it grows without bound however the frequency moves, and the number of samples until it exceeds a bound depends only on the range of the frequency, Q and the first sample.
* `C85_svf_above_refuted`: REFUTED: the state variable filters stay bounded at every cutoff frequency. With a cutoff frequency between half of the sample rate and the sample rate (or that plus a multiple of the sample rate) a single nonzero sample followed by silence makes the output grow beyond any bound: the tangent of the prewarped cutoff is negative there, and nothing limits it (svf.rs:29, 50, 71, ...). The opcodes neither clamp nor document the range. The cutoff of sound.rs:114 (the snare drum) begins at 15000 Hz and that of sound.rs:136 (the cymbal) at 20000 Hz, above half of a sample rate of 22050 Hz.

## 5. What is modelled and what is not

| source | modelled in | not modelled |
|---|---|---|
| `net.rs`, `vertex.rs` | `NetModel`, `OrderModel`, `FadeModel`, `NetRouteModel`, `NetRateModel` | `Net::display`, `Debug` |
| `realnet.rs` | `RealnetModel` | |
| `sequencer.rs`, `realseq.rs` | `SeqModel` | allocation, `has_backend` checks |
| `audionode.rs` | `NodeModel` (combinators), `SignalModel` (`route`), `UnitModel` | `Map` closures are arbitrary functions |
| `combinator.rs` | the combinators that the operators build, operators with numbers, the builder methods `phase`, `seed`, `interval` and `subsample` | the forwarding methods of `An` |
| `audiounit.rs` | `AdaptModel`, `UnitModel`, `FadeModel` (`DummyUnit`) | `display` |
| `setting.rs` | `NodeModel`, `AdaptModel` (`SettingListener`) | |
| `delay.rs`, `feedback.rs`, `fir.rs`, `pan.rs` | `DelayModel`, `FirModel`, `HadamardModel` | |
| `dynamics.rs`, `follow.rs` | `DynModel`, `ReduceModel`, `MeterModel` | |
| `wave.rs` | `WaveModel` | |
| `noise.rs`, `math.rs` | `MlsModel`, `HashModel`, `MathModel`, `TuneModel` (`Hold`), `DrumModel` (`pink`, `brown`) | |
| `shared.rs` | `IdModel`, `SharedModel` | `route` of these units; memory orders other than one order of accesses per atomic number |
| `snoop.rs`, `ring.rs`, `slot.rs` | `SnoopModel`, `SlotModel` | |
| `buffer.rs` | `LayoutModel`, `BufModel` | |
| `signal.rs` | `SignalModel` | |
| `filter.rs`, `biquad.rs`, `svf.rs` | `FilterModel` | |
| `envelope.rs`, `adsr.rs` | `EnvModel` | |
| `resample.rs`, `oversample.rs` | `ResampleModel`, `OverModel` | rounding |
| `oscillator.rs` | all nodes | `route`; SIMD sine taken to be the scalar sine; the generator of the string's excitation is a parameter |
| `wavetable.rs` | all of `make_wave`, `Wavetable`, `WaveSynth`, `PhaseSynth`, `PulseWave`; phases and amplitudes of all named tables | the once-only cells that hold tables; the transforms of `fft.rs`, which are required to be discrete Fourier transforms |
| `shape.rs` | ShapeModel.v | the hashing of shapes by `ShapeFn`; `wide`'s approximations of tanh and atan are not told from the exact functions |
| `resynth.rs`, `fft.rs` | `FftWindow`, `Resynth`, `fix_nyquist`, `fix_negative`, lengths | the transforms themselves (parameters), polar accessors, `at_output` |
| `write.rs` | all, on a writer; `BufWriter` of the standard library as far as it is used | opening of files; writing of NaN payloads |
| `moog.rs`, `rez.rs`, `biquad_bank.rs`; `set` functions of the filters, followers, `pan`, `dsf`, `hold`, `AllNest`, `constant` | TuneModel.v | `process` of banks with SIMD types (a lane is a number), `route`, `Setting` builders other than addresses |
| `reverb.rs`; in `prelude.rs`: `fdn`, `reverb_stereo`, `reverb2_stereo`, `reverb3_stereo`, `reverb4_stereo`, `reverb4_stereo_delays` | RevModel.v, HallModel.v, MotionModel.v | `process` of `Reverb` (the default, which calls `tick`) |
| `system.rs` | SysModel.v | `ping`, `route`, `allocate` (passed on) |
| `granular.rs` | all of `Granular` but `route` and `footprint` | funutd's textures and random numbers, which are parameters; f64 times are reals |
| `read.rs` | `decode` | opening of files; Symphonia, which is a parameter |
| in `prelude.rs`: `chorus`, `flanger`, `phaser` | FxModel.v | block processing (feedback nodes tick; for envelopes and taps see C49 and C23); `fractal_noise` is a parameter here, see C58 |
| in `prelude.rs`: size names, `busi`, `busf` and their kin, `rotate`, `fir3`; `get_mono`, `get_stereo`, `filter_mono`, `filter_stereo` of `audionode.rs` and `audiounit.rs` | PreModel.v | N = 0 in `branchi` and `sumi` (they have no assertion and give no outputs, or zeros) |
| `sound.rs`, `gen.rs` | SoundModel.v: `bassdrum`, `risset_glissando`, the control functions of `gen_lfo`; DrumModel.v: `snaredrum`, with `pink`, `brown` and `lowpass_q`; CymbalModel.v: `cymbal`; PebbleModel.v, VoicesModel.v: `pebbles` | `gen_effect`, `gen_granular`, generated source text |
| `denormal.rs`, `prelude.rs`, `hacker*.rs` | | all, except for the constructors and nodes that a property names |

Not modelled anywhere: `#[derive]`d code, memory allocation and safety of `unsafe` blocks, real-time guarantees, weak memory orderings,
floating-point rounding except where stated.

## 6. Axioms per theorem

As printed by `Print Assumptions`. All are axioms of the standard library.

Closed under the global context (227 theorems):

C01_evaluation_order, C01_every_node_once, C02_remove_link_refuted, C02_well_formed_partial, C03_remove, C04_tick_is_dataflow, C05_blocks_are_ticks, C06_branch, C06_channelwise, C06_pipe, C06_scalar, C06_stack, C06_thru, C06_wrap, C07_check_after_pipe_refuted, C07_check_after_remove_refuted, C07_check_partial, C08_commit, C08_full_channel_refuted, C08_no_panic, C08_playing_is_committed, C08_poll, C09_new_node_refuted, C09_settings_partial, C10_new_nodes_partial, C10_playing_nodes_partial, C10_reset_refuted, C10_skipped_fade_in_refuted, C11_f32_length_refuted, C11_queued_refuted, C12_dummy_partial, C12_dummy_silent_partial, C12_fade_in_refuted, C13_halfway_refuted, C14_edit_reaches_partial, C14_leaving, C14_one_group, C14_tick_total, C15_fade_in_refuted, C15_fade_out_refuted, C15_negative_refuted, C15_panic_refuted, C16_past_end_refuted, C16_revived_refuted, C17_messages_partial, C17_reset_refuted, C18_any_partition, C18_block_equals_ticks, C18_join_rounding_refuted, C18_multibus_sign_of_zero_refuted, C18_thru_generator_refuted, C19_associative, C19_binop, C19_branch, C19_branch_shares_input, C19_bus, C19_bus_commutative, C19_bus_sums_branch, C19_chain, C19_chain_is_pipes, C19_congruence, C19_exchange, C19_multibranch, C19_multibus, C19_multistack, C19_pass_is_unit, C19_pipe, C19_readme_equivalences, C19_reduce, C19_reverse_involutive, C19_stack, C19_thru, C19_unop, C20_addresses_distinct, C20_set_exact, C20_set_reaches, C21_dial_refuted, C21_dropped_refuted, C21_received_partial, C21_reset_refuted, C22_blocks, C22_delay, C22_tick, C23_linear_blocks_refuted, C24_feedback2_equation, C24_feedback_equation, C24_feedback_unique, C24_unit, C24_unit_reset, C25_big, C25_block_rate, C25_block_rate_reset, C25_block_rate_ticks, C26_empty_reducer_panics, C26_reduce_total, C28_either, C28_expression_reset, C28_expressions, C29_append_refuted, C29_common_length, C29_edit_partial, C29_made, C29_removed, C30_beyond_refuted, C30_longest_refuted, C30_retain_partial, C31_checked, C31_player, C32_filter, C32_latency_refuted, C32_render, C32_reset_refuted, C33_mls_full_period, C33_mls_initial_state_nonzero, C33_mls_output_period, C34_noise_block_equals_tick, C34_noise_hash_permutation, C34_noise_range, C35_atto_hash_injective, C35_hash1_permutation, C35_rnd1_unit_interval, C36_duplicate_refuted, C36_first_ids, C36_one_thread, C36_prompt_partial, C37_range_f32_refuted, C39_overflow_refuted, C40_history, C40_latest_partial, C40_overflow_refuted, C40_passes_through, C40_unfinished_refuted, C41_fifo, C42_conserved, C42_crossfades, C42_dropped_refuted, C42_no_panic, C43_array, C43_as_channels, C43_overrun, C43_owned, C43_scalar_write, C43_subset, C43_views, C43_word_write, C45_histories_differ, C45_ping_seeds, C45_probe_is_pure, C46_limiter_constant_refuted, C46_limiter_lookahead_refuted, C46_pipe_sum_refuted, C46_safe_without_stacks, C46_stack_panics_refuted, C47_fir_any, C47_fir_blocks, C47_fir_reset, C47_fir_set_weights, C47_mixer_blocks, C47_pan_blocks, C49_blocks_float_refuted, C49_blocks_short_refuted, C52_edit_restarts_noise_refuted, C52_order_keeps_state_partial, C53_edit_effect, C53_playing_keeps_connections, C54_coefficient_input, C55_normalize_refuted, C56_at_once, C56_latest, C56_waits, C56_waits_block, C57_average_refuted, C59_now, C59_rate_partial, C59_rate_refuted, C62_block_refuted, C62_chaos_refuted, C62_dsf_zero_refuted, C63_blocks_refuted, C63_nan_refuted, C63_phase_range_refuted, C64_crush_refuted, C64_softsign_refuted, C66_errors_partial, C66_errors_refuted, C66_sizes_refuted, C66_wav32, C67_bank, C68_allnest_refuted, C68_panics, C68_ports, C68_repeats, C68_settings, C71_tables, C72_hash_refuted, C74_channels_refuted, C74_errors, C74_load, C74_rate_refuted, C74_track_refuted, C74_truncated_refuted, C75_associative_refuted, C75_constants, C75_interval, C75_net_numbers, C75_phase, C75_phase_refuted, C75_seed, C77_indexed, C77_methods, C77_sizes_partial, C77_sizes_refuted, C79_branch, C79_channelwise, C79_pipe, C79_route_equations, C79_route_total, C79_stack, C79_thru, C82_combine_refuted, C82_commit, C82_commit_rate, C82_fading_refuted, C82_in_tune, C82_queue_refuted, C82_set_rate, C83_octave_part

`ClassicalDedekindReals.sig_forall_dec` (1 theorems):

C28_feedback_unit

`ClassicalDedekindReals.sig_forall_dec`, `FunctionalExtensionality.functional_extensionality_dep` (160 theorems):

C11_blocks, C11_crossfade, C13_samples_partial, C13_ticks_partial, C15_history_partial, C16_edit_partial, C18_any_partition_exact, C19_split_then_join, C22_rounding, C23_linear_blocks_partial, C23_linear_ticks, C23_tap_blocks, C23_tap_ticks, C24_unit_delay, C27_limiter_amplifies_after_reset_refuted, C27_limiter_fresh_exact, C27_limiter_fresh_gain_partial, C28_afollow_reset, C28_declick, C28_delays, C28_effect_units, C28_everything, C28_filter_inputs_reset, C28_follow_reset, C28_generators, C28_linear_taps, C28_nested, C28_nodes, C32_latency_partial, C37_clamp, C37_lerp, C38_mono_refuted, C38_spline, C39_afollow_bounds, C39_follow_bounds, C39_follow_jump, C39_follow_jump_refuted, C42_latest_partial, C44_matrix, C44_rounded_scale, C46_constants, C46_delayed_input, C46_latency_heard, C46_merge_min, C46_pipe_sum, C46_stack_constants_refuted, C47_fir_partial, C47_fir_refuted, C47_fir_symmetric, C47_impulse_response, C47_mixer, C47_mixer_pipe, C48_output, C48_quadratic, C48_range, C48_start_refuted, C48_whole_speed, C49_adsr_attack, C49_adsr_range, C49_adsr_release, C49_adsr_reset_refuted, C49_adsr_silent_refuted, C49_adsr_sustain, C49_envelope_blocks, C49_envelope_close, C49_envelope_input_blocks, C49_envelope_input_line, C49_envelope_line, C49_envelope_linear, C49_envelope_range, C49_envelope_slope, C49_rate_change_refuted, C49_segments, C49_zero_interval_refuted, C50_constant, C50_minimum_phase_refuted, C50_new, C50_output, C50_route_refuted, C50_shape, C51_limiter_passes_first_peak_refuted, C54_lossless, C54_passive, C55_amplitude, C55_normalize_partial, C57_periodic, C57_soft, C57_softmix_partial, C58_ease_noise, C58_ease_noise_slope, C58_fractal, C58_hash_numbers, C58_spline_noise, C62_dsf_top_refuted, C62_pulse, C62_ramp, C62_reset, C62_roughness, C62_saw, C62_square, C63_bandlimited, C63_blocks_partial, C63_interpolation, C63_no_overshoot, C63_phase_reset, C63_phase_synth, C63_pulse, C63_rate, C63_read, C63_reset, C63_set_phase, C63_synth, C65_forward, C66_rate, C67_shaped_bounded, C67_shaped_linear, C68_held, C68_inputs, C69_moving_tap, C69_network, C69_runaway_tap, C69_tail, C70_block_refuted, C70_blocks, C70_calls, C70_intervals, C70_ticks, C71_latest, C71_nearest_refuted, C71_nonfinite_refuted, C71_plays, C71_readings, C71_timer, C72_blocks, C72_on_time, C72_reset, C72_sequencer, C72_tiling, C73_declick, C75_numbers, C75_subsample, C75_subsample_changes, C75_subsample_restarts, C77_fractional, C78_cymbal_pitches, C78_endless, C78_pebbles_pull, C78_pebbles_self, C78_snaredrum_modes, C79_constants_heard, C79_latency_heard, C80_regular, C80_stretches, C83_hammond_partials, C83_no_overflow, C83_organ_emphasis, C83_organ_octave, C83_soft_saw_triangle, C84_allpole, C85_biquad_unstable

`ClassicalDedekindReals.sig_forall_dec`, `ClassicalDedekindReals.sig_not_dec`, `FunctionalExtensionality.functional_extensionality_dep` (65 theorems):

C11_weights, C15_weights_partial, C28_meters, C42_refused_refuted, C44_energy, C44_involution, C47_pan_ends, C47_pan_monotone, C47_pan_power, C47_pan_value, C55_fades, C60_morph_partial, C60_morph_refuted, C60_response_stable, C60_response_unique, C60_set_gain_inaudible, C60_set_gain_refuted, C61_biquad_edges, C61_biquad_levels, C61_biquad_same, C61_svf_cutoff, C61_svf_edges, C62_set_phase, C62_sine, C62_sine_blocks, C63_alias_refuted, C63_partial_level, C63_saw, C63_square, C63_triangle, C64_adaptive_bound, C65_long_window_refuted, C65_overlap_add, C65_reconstruct, C65_reset, C65_times, C69_silence, C72_arguments, C76_chorus, C76_chorus_bound, C76_flanger, C76_flanger_bound, C76_flanger_dry, C76_phaser, C76_phaser_refuted, C76_phaser_stable, C76_reset, C77_fir3, C77_rotate, C78_gen_lfo, C78_weights, C79_cycle_latency_refuted, C79_filter_latency_heard, C83_hammond, C83_mix, C83_mix_saw_cancels_refuted, C83_mix_saw_refuted, C83_organ, C83_soft_saw, C84_butterpass_refuted, C85_biquad_stable, C85_biquad_stable_iff, C85_butterpass_above_refuted, C85_butterpass_stable_iff, C85_svf_above_refuted

`ClassicalDedekindReals.sig_forall_dec`, `ClassicalDedekindReals.sig_not_dec`, `Classical_Prop.classic`, `FunctionalExtensionality.functional_extensionality_dep` (133 theorems):

C23_linear_tone, C23_tap_tone, C28_subsample_refuted, C34_brown, C34_pink, C34_pinkpass, C34_pinkpass_gain, C37_arcs, C37_easing_exact, C38_mono_partial, C39_coefficient_range, C39_halfway_refuted, C39_meter, C39_meter_blocks, C39_rms, C48_pitch, C48_tone, C49_clock_stops_no_input_refuted, C49_clock_stops_refuted, C57_decibels, C57_dissonance, C57_inverses, C57_tuning, C58_fractal_mean_slope, C58_fractal_slope, C58_spline_noise_slope, C60_filter_heard, C60_response_heard, C61_allpole, C61_allpole_delay, C61_constant, C61_constant_gain, C61_pole_slope, C62_dsf, C62_dsf_count_refuted, C62_pluck, C62_pluck_gain, C62_pluck_high_refuted, C62_pluck_reset, C62_still_refuted, C63_builds, C63_few_tables_refuted, C63_from_wave, C63_from_wave_refuted, C63_low_pitch_refuted, C63_partial_level_refuted, C63_tables, C64_adaptive, C64_blocks_partial, C64_clip, C64_clip_to, C64_clip_to_refuted, C64_crush, C64_minimum_level, C64_minimum_level_refuted, C64_saturation, C64_soft_crush, C64_timescale, C66_sample16, C66_wav16, C67_moog_bounded, C67_moog_output, C67_nonexpansive, C67_nonexpansive_refuted, C67_rez_bounded, C67_rez_refuted, C68_resonator_refuted, C68_shape_rate_refuted, C69_decay, C69_rate_refuted, C69_reset_refuted, C69_reverb2, C69_reverb2_delays, C69_reverb2_gain, C69_reverb2_moving, C69_reverb3, C69_reverb3_gain, C69_reverb4, C69_reverb4_count, C69_reverb4_decay, C69_reverb_stereo, C69_stable, C70_time_stops_refuted, C71_safe, C73_gain, C73_in_range, C73_monitor, C75_subsample_refuted, C76_chorus_motion, C77_fractional_floats, C77_unit_methods, C78_bassdrum, C78_bassdrum_decays, C78_bassdrum_pitch, C78_cymbal, C78_cymbal_bounded, C78_cymbal_level, C78_dissonance_max, C78_pebbles, C78_pebbles_glide, C78_pebbles_level, C78_pebbles_sound, C78_pebbles_start, C78_pebbles_voices, C78_risset, C78_snaredrum, C78_snaredrum_bounded, C78_snaredrum_level, C78_swept, C78_voices, C79_response_heard, C80_mean_frequency_refuted, C80_zero_frequency_refuted, C81_bandwidth, C81_center_power, C81_constant_gain, C81_half_band, C81_hertz_refuted, C81_rings, C81_tone_gain_refuted, C81_tone_power, C83_tables, C84_highpole, C84_highpole_silent, C84_lowpole, C84_lowpole_silent, C84_peak, C84_resonator_refuted, C84_svf_bounded, C84_svf_silent, C85_lowpass_swept_refuted, C85_resonator_stable, C85_svf_stable_iff
