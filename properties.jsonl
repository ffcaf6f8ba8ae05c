{"id": "C01", "title": "Net evaluation order", "statement": "Net evaluates every node exactly once per sample, and whenever the connections contain no directed cycle, after all nodes it reads from; Net::error() reports a cycle exactly when the local connections contain a directed cycle.", "quantifier": "every network (any number of nodes, any port counts, any connections between existing nodes)", "why_tests_cant": "Graphs are unbounded; tests cover a handful of topologies and cannot exclude a topology that is ordered wrongly or a cycle that goes unreported.", "anchors": ["src/net.rs: Net::determine_order, determine_order_in, propagate, error", "src/vertex.rs: Vertex::update_source_vertex"]}
{"id": "C02", "title": "Net stays well formed under any edit history", "statement": "After any sequence of push, remove, replace, set_source, connect, disconnect, pipe, chain and output edits with in-range arguments, every node id resolves to exactly one node, every connection refers to an existing node and an existing port, and every node has exactly one source per input and the net one source per output.", "quantifier": "every finite sequence of editing calls, starting from every empty network", "why_tests_cant": "The property is an invariant over unbounded edit histories with swap-remove index relocation.", "anchors": ["src/net.rs: Net::push, remove_2, replace, connect, disconnect, set_source, connect_input, pipe_input, connect_output, pipe_output, pass_through, pipe_all, chain, check"]}
{"id": "C03", "title": "Removing a node leaves the rest of the net alone", "statement": "remove() / remove_link() delete exactly the given node: every input that read the removed node becomes zero (remove) or reads what the removed node's same-numbered input read (remove_link); all other connections, units and ids are unchanged, whatever index the nodes are moved to.", "quantifier": "every well-formed network and every node in it", "why_tests_cant": "Removal relocates the last node into the freed slot; the statement ranges over all graphs, including ones where the moved node and the removed node are connected.", "anchors": ["src/net.rs: Net::remove, remove_link, remove_2"]}
{"id": "C04", "title": "Net tick computes the dataflow semantics", "statement": "For an acyclic network one tick() feeds every node with exactly the values its sources produce in that same sample (global inputs, other nodes' outputs, or zero) and the net outputs are the values of the connected ports.", "quantifier": "every acyclic network, every unit behaviour, every input", "why_tests_cant": "Equality with the dataflow equations for all graphs; tests check specific graphs.", "anchors": ["src/net.rs: Net::tick_2, determine_order_in", "src/vertex.rs: Vertex::tick"]}
{"id": "C05", "title": "Net block processing equals per-sample ticking", "statement": "Processing a block of any size 0..64 through a network gives the same samples and the same node states as ticking it sample by sample, for every way of cutting the signal into blocks, provided the units in it have that property; the zero-copy shortcut for contiguous sources never changes the result.", "quantifier": "every acyclic network, every unit behaviour satisfying tick/process equivalence, every sequence of block sizes", "why_tests_cant": "All graphs, all block partitions, all unit behaviours.", "anchors": ["src/net.rs: Net::process_2, tick_2", "src/vertex.rs: update_source_vertex, process, tick"]}
{"id": "C06", "title": "Network operators mean what the static combinators mean", "statement": "The Net operators >> | & ^ + - * and ! build a network whose dataflow semantics is the pipe, stack, bus, branch, channelwise sum/difference/product, and pass-through completion of the operands.", "quantifier": "every pair of networks with compatible arity, every input", "why_tests_cant": "The operators renumber nodes and splice output edges for arbitrary operand networks.", "anchors": ["src/net.rs: Net::pipe, stack, bus, branch, binary, thru, chain, migrate, disambiguate_ids"]}
{"id": "C07", "title": "Net::check accepts every consistent network", "statement": "The public consistency check Net::check() does not panic on a network obtained from in-range editing calls, wherever rendering or error() calls are interleaved.", "quantifier": "every history of edits, ticks and checks", "why_tests_cant": "A stale cached field is only visible for particular histories (edit after an ordering was computed).", "anchors": ["src/net.rs: Net::check, remove_2", "src/vertex.rs: source_vertex"]}
{"id": "C08", "title": "A committed network becomes the playing network", "statement": "After the frontend commits and the backend has polled, the backend plays the committed network: same connections and order, units that were unchanged keep their running state, and new or replaced units start from the state they had in the frontend.", "quantifier": "every frontend/backend history and every interleaving of commits, settings and polls", "why_tests_cant": "Schedule dependent; holds or fails by interleaving.", "anchors": ["src/net.rs: Net::commit, migrate, backend, apply_edits, apply_foreign_edits", "src/realnet.rs: NetBackend::handle_messages"]}
{"id": "C09", "title": "Settings reach the network they were sent after", "statement": "A setting sent through Net::set after a commit is applied to the committed network, however many messages the backend drains at once.", "quantifier": "every interleaving of commit, setting and poll", "why_tests_cant": "Depends on how messages batch up between two audio callbacks.", "anchors": ["src/realnet.rs: NetBackend::handle_messages", "src/net.rs: Net::set, commit"]}
{"id": "C10", "title": "Fade-ins and crossfades survive skipped commits", "statement": "A node added with fade_in or edited with crossfade is eventually playing its own unit after commit, even if several commits happen between two polls of the backend.", "quantifier": "every number of commits between two polls", "why_tests_cant": "Schedule dependent.", "anchors": ["src/net.rs: fade_in, crossfade, commit, apply_foreign_edits", "src/realnet.rs"]}
{"id": "C11", "title": "Crossfades between units complete and stay in range", "statement": "A crossfade of N samples mixes old and new unit with weights in [0,1] that sum to one (smooth fade), goes from the old unit alone to the new unit alone, and ends after N samples in both per-sample and block mode, for every block partition.", "quantifier": "every fade length, every partition into blocks, every pair of units", "why_tests_cant": "Real-valued weight claims and all partitions.", "anchors": ["src/vertex.rs: Vertex::tick, process, next_phase, enqueue", "src/sequencer.rs: Fade::at"]}
{"id": "C12", "title": "A silent placeholder is silent", "statement": "The placeholder unit used while a node fades in outputs zeros for every sample of every block.", "quantifier": "every block size 1..64 and every previous buffer content", "why_tests_cant": "Only visible for block sizes above one SIMD word with stale buffer contents.", "anchors": ["src/audiounit.rs: DummyUnit::process, tick"]}
{"id": "C13", "title": "Sequencer events sound exactly on their samples", "statement": "An event with start time s and end time e contributes to exactly the output samples whose time is in its span (sample accurate, rounded to nearest), and to no other, whatever order events were pushed in and however the output is cut into blocks.", "quantifier": "every multiset of events, every push order, every block partition", "why_tests_cant": "Unbounded event sets and partitions; heap and thresholds interact with block boundaries.", "anchors": ["src/sequencer.rs: Sequencer::push, tick, process, ready_to_active"]}
{"id": "C14", "title": "Sequencer bookkeeping", "statement": "At all times each pushed event is in exactly one of the waiting, active and past groups, the id lookup of active events is exact, and an edit by id reaches that event.", "quantifier": "every sequence of push, push_relative, edit, edit_relative, tick, process, reset", "why_tests_cant": "Invariant over unbounded histories with swap-remove.", "anchors": ["src/sequencer.rs: Sequencer, Event, EventId, edit, edit_relative, reset"]}
{"id": "C15", "title": "Sequencer fades agree between ticking and block rendering", "statement": "Fade-in and fade-out weights applied to an event depend only on the sample's time, not on whether and how the output is rendered in blocks, and lie in [0,1].", "quantifier": "every event timing, fade length and block partition", "why_tests_cant": "The weights are computed by two separate code paths for all alignments of event, fade and block.", "anchors": ["src/sequencer.rs: fade_in, fade_out, process, tick", "src/math.rs: smooth5"]}
{"id": "C16", "title": "Shortening an event by edit is respected", "statement": "Editing an event's end time before it has ended makes it end at the new end time (or never start, if the new end time is in the past).", "quantifier": "every event, every time of the edit, every new end time", "why_tests_cant": "Depends on the state the event is in when the edit arrives.", "anchors": ["src/sequencer.rs: edit, edit_relative, ready_to_active"]}
{"id": "C17", "title": "Realtime sequencer messages take effect in order", "statement": "The effect of push, edit and reset messages sent to a sequencer backend is that of applying them in the order they were sent, however they batch up.", "quantifier": "every message sequence and every batching", "why_tests_cant": "Schedule dependent.", "anchors": ["src/realseq.rs: SequencerBackend::handle_messages"]}
{"id": "C18", "title": "Block processing equals ticking for the graph combinators", "statement": "For every expression built from pipe, stack, branch, bus, thru, binary and unary operators, multi-bus/stack/branch/chain/reduce and the routing nodes, processing blocks of any sizes 0..64 gives the same samples and state as ticking, and never depends on previous buffer contents, if the leaf nodes have that property.", "quantifier": "every expression tree, every leaf behaviour, every block partition, every initial buffer content", "why_tests_cant": "Unbounded expression trees and partitions.", "anchors": ["src/audionode.rs: Pipe, Stack, Branch, Bus, Thru, Binop, Unop, Map, MultiBus, MultiStack, MultiBranch, Reduce, Chain, Split, Join, Pass, Sink, Constant, Reverse"]}
{"id": "C19", "title": "Combinators compute the documented graph algebra", "statement": "x >> y composes, x | y runs side by side, x ^ y shares the input, x & y sums with a shared input, !x passes through missing outputs, chains compose in order, split/join/reverse route channels as documented; >>, | and ^ are associative in observable behaviour.", "quantifier": "every expression, every input stream", "why_tests_cant": "Equalities of stream functions over all inputs and node behaviours.", "anchors": ["src/audionode.rs: Pipe, Stack, Branch, Bus, Thru, MultiBus, MultiStack, MultiBranch, Chain, Reduce, Split, MultiSplit, Join, MultiJoin, Reverse"]}
{"id": "C20", "title": "Settings reach exactly the addressed node", "statement": "A setting with a left/right/index address is delivered to the node at that address in the expression and to no other node.", "quantifier": "every expression tree and every address", "why_tests_cant": "All trees and addresses.", "anchors": ["src/setting.rs: Setting::left, right, index, direction, peel", "src/audionode.rs: set implementations"]}
{"id": "C21", "title": "Setting listeners apply settings", "statement": "A setting sent through the sender returned by listen(node) is applied to the node before its next output.", "quantifier": "every node, every sequence of settings and ticks", "why_tests_cant": "Needs the composition of channel, listener and node for all nodes.", "anchors": ["src/setting.rs: SettingListener::receive_settings, listen"]}
{"id": "C22", "title": "Delay delays exactly", "statement": "delay(t) outputs its input exactly round(t * sample_rate) samples later and zeros before that; tick() delays by one sample.", "quantifier": "every delay length and every input stream", "why_tests_cant": "All lengths and streams with a wrapping ring buffer.", "anchors": ["src/delay.rs: Delay, Tick"]}
{"id": "C23", "title": "Variable taps read the right samples", "statement": "The interpolating delay taps read exactly the input samples around the requested delay, clamped to the declared range, never samples outside the buffer or not yet written, in tick and in block mode. A tone of w radians per sample and amplitude A comes out of a cubic tap as it was the given time ago up to 3/32 A w^3, and out of a linear tap up to 1/8 A w^2, also while the delay moves.", "quantifier": "every min/max delay, every delay control signal, every block partition", "why_tests_cant": "Ring buffer masking with SIMD write-ahead, for all sizes.", "anchors": ["src/delay.rs: Tap, TapLinear"]}
{"id": "C24", "title": "Feedback loops", "statement": "feedback(x) feeds each output of x (transformed by the loop operator) back into the next input of x; FeedbackUnit does the same with a delay of exactly max(1, round(delay*sr)) samples, and block processing gives the same result as ticking.", "quantifier": "every enclosed unit, every delay, every input stream and block partition", "why_tests_cant": "The unit reads and writes a masked ring in blocks that may exceed the delay.", "anchors": ["src/feedback.rs: Feedback, Feedback2, FeedbackUnit"]}
{"id": "C25", "title": "Block adapters are transparent", "statement": "BigBlockAdapter produces for any request size the same stream as the wrapped unit processed in its own blocks; BlockRateAdapter always runs the wrapped unit in blocks of exactly 64 and serves the samples in order for every mix of ticks and block requests.", "quantifier": "every unit, every sequence of tick and process requests", "why_tests_cant": "All request sequences.", "anchors": ["src/audiounit.rs: BigBlockAdapter, BlockRateAdapter"]}
{"id": "C26", "title": "Sliding window reduction", "statement": "ReduceBuffer::total() is the reduction (maximum) of the current values of all its slots after any sequence of set() calls, for every length, and all accesses stay in bounds.", "quantifier": "every length, every sequence of updates, every commutative monoid", "why_tests_cant": "An implicit binary tree with padding; all lengths and histories.", "anchors": ["src/dynamics.rs: ReduceBuffer"]}
{"id": "C27", "title": "The limiter never amplifies", "statement": "The look-ahead limiter outputs its input delayed by the attack time in samples and multiplied by a gain in (0,1], for every input.", "quantifier": "every input stream, attack/release setting and history including reset()", "why_tests_cant": "Universally quantified bound over streams and histories.", "anchors": ["src/dynamics.rs: Limiter", "src/follow.rs: AFollow"]}
{"id": "C28", "title": "Reset restores the initial state", "statement": "After reset() a node produces the output it would produce when freshly created.", "quantifier": "every node kind, every history before the reset", "why_tests_cant": "Quantifies over all histories before the reset.", "anchors": ["src/audionode.rs: AudioNode::reset", "src/dynamics.rs: Limiter::reset", "src/reverb.rs: Reverb::reset", "src/noise.rs: Mls::reset", "src/oversample.rs", "src/resample.rs"]}
{"id": "C29", "title": "Wave buffers stay rectangular", "statement": "After any sequence of channel and length edits all channels of a Wave have the common length reported by len(), and push/insert/remove/append/mix/resize/retain have the documented effect on samples and change nothing else.", "quantifier": "every sequence of Wave edits", "why_tests_cant": "Invariant over unbounded edit histories.", "anchors": ["src/wave.rs: Wave"]}
{"id": "C30", "title": "Wave::retain accepts any span", "statement": "retain(start, length) keeps exactly the part of the wave that overlaps the span, for every start and length.", "quantifier": "every wave and every (possibly negative) start and length", "why_tests_cant": "Boundary arithmetic over all integers.", "anchors": ["src/wave.rs: Wave::retain, resize"]}
{"id": "C31", "title": "Wave playback", "statement": "A wave player outputs the samples from start to end point in order, then loops from the loop point forever or is silent, and never reads outside the wave.", "quantifier": "every wave, start, end and loop point", "why_tests_cant": "All point combinations and unbounded playback.", "anchors": ["src/wave.rs: WavePlayer"]}
{"id": "C32", "title": "Rendering to a wave", "statement": "Wave::render yields exactly round(duration*sample_rate) samples per channel equal to the node's tick sequence; filter() likewise processes every input sample exactly once in order; the latency variants discard exactly the node's latency.", "quantifier": "every node, duration and sample rate", "why_tests_cant": "All lengths, including those not divisible by the block size.", "anchors": ["src/wave.rs: Wave::render, render_latency, filter, filter_latency"]}
{"id": "C33", "title": "Maximum length sequences", "statement": "For every order n in 1..31 and every seed, the MLS generator visits all 2^n-1 nonzero states before repeating; it never enters the zero state and its output period is exactly 2^n-1.", "quantifier": "all n in 1..31, all seeds, all steps", "why_tests_cant": "2^31 states per table entry and 31 table entries.", "anchors": ["src/noise.rs: MlsState, MLS_POLY"]}
{"id": "C34", "title": "White, pink and brown noise", "statement": "The block and tick paths of the noise generator produce the same samples, its values stay in [-1,1], its counter mixing is a bijection so that no two counter values within a period collide before truncation. pink() is the pinking filter of that noise and brown() its 10 Hz lowpass times 13.7, both the same whenever they are played from the start; pink noise stays within 8.01 and brown noise within 13.7; pinkpass raises no signal by more than 8.01.", "quantifier": "every counter state, every block partition, every hash, every signal into the pinking filter, every sample rate", "why_tests_cant": "All 2^32 states and partitions.", "anchors": ["src/noise.rs: Noise, hash32x", "src/filter.rs: Pinkpass", "src/hacker.rs: pinkpass, pink, brown"]}
{"id": "C35", "title": "Hash and random utilities", "statement": "hash1 is a permutation of the 64-bit integers, AttoHash update is injective in state and data, rnd1 maps into [0,1).", "quantifier": "all 64-bit arguments", "why_tests_cant": "2^64 inputs.", "anchors": ["src/math.rs: hash1, rnd1, AttoHash"]}
{"id": "C36", "title": "Generated ids are unique", "statement": "Two calls of the id generator never return the same id, from any number of threads.", "quantifier": "every interleaving of any number of concurrent calls", "why_tests_cant": "Concurrent interleavings, wrap-around at 2^32.", "anchors": ["src/shared.rs: IdGenerator"]}
{"id": "C37", "title": "Easing functions", "statement": "smooth3/5/7/9 map [0,1] monotonically onto [0,1] with smooth(1-x)=1-smooth(x); lerp and delerp are inverse; clamp keeps values in range.", "quantifier": "all real arguments", "why_tests_cant": "Continuous domain.", "anchors": ["src/math.rs: smooth3, smooth5, smooth7, smooth9, lerp, delerp, clamp"]}
{"id": "C38", "title": "Spline interpolation", "statement": "spline passes through the middle control points, is exact on linear (and quadratic) data and overshoots by at most 1/8 of the data range; spline_mono stays between the middle points for monotone data.", "quantifier": "all real control values and all positions in [0,1]", "why_tests_cant": "Continuous domain.", "anchors": ["src/math.rs: spline, spline_mono"]}
{"id": "C39", "title": "Follower and meter bounds", "statement": "follow/afollow output always stays between the smallest and the largest of the initial value and the inputs seen; the meters report the documented statistic.", "quantifier": "every input stream and every coefficient in range", "why_tests_cant": "All streams.", "anchors": ["src/follow.rs: Follow, AFollow", "src/dynamics.rs: MeterState"]}
{"id": "C40", "title": "Snoop buffers report the latest samples", "statement": "A snoop frontend after an update holds exactly the most recent samples that passed through the backend, in order.", "quantifier": "every stream, every schedule of backend blocks and frontend updates", "why_tests_cant": "Schedules and block sizes.", "anchors": ["src/snoop.rs"]}
{"id": "C41", "title": "Ring buffer is a FIFO", "statement": "A ring node outputs the frames sent by the frontend in order, exactly once each, and zeros on underrun.", "quantifier": "every schedule of sends and ticks", "why_tests_cant": "Interleavings.", "anchors": ["src/ring.rs"]}
{"id": "C42", "title": "Slot plays the latest unit", "statement": "A slot eventually plays the last unit set by the frontend and returns every replaced unit to the frontend, whatever the interleaving of set() and rendering.", "quantifier": "every interleaving of set and render, every fade time", "why_tests_cant": "Interleavings.", "anchors": ["src/slot.rs: Slot, SlotBackend"]}
{"id": "C43", "title": "Buffers index samples without interference", "statement": "Writing a sample through the scalar view of a SIMD buffer changes exactly that sample, reading through either view gives the same sample, channel subsets alias exactly their channels.", "quantifier": "every channel, index and buffer content", "why_tests_cant": "All indices and contents.", "anchors": ["src/buffer.rs: BufferRef, BufferMut, BufferVec, BufferArray"]}
{"id": "C44", "title": "Feedback delay network mixing preserves energy", "statement": "The Hadamard mixing matrix used in feedback loops and reverbs preserves the sum of squares for every power-of-two channel count.", "quantifier": "every power-of-two size and every input vector", "why_tests_cant": "All sizes and vectors.", "anchors": ["src/feedback.rs: FrameHadamard"]}
{"id": "C45", "title": "Node hashing is deterministic and structural", "statement": "The pseudorandom phase seed given to each node depends only on the structure of the expression and the node's position in it; two generators at different positions of one expression see different ping histories.", "quantifier": "every expression", "why_tests_cant": "All trees.", "anchors": ["src/audionode.rs: ping, set_hash", "src/math.rs: AttoHash", "src/audiounit.rs: An::ping"]}
{"id": "C46", "title": "Signal routing and latency", "statement": "Latency reported for composed filters is the sum along a pipe and the minimum over merging paths, exactly as analysed by the routing rules; constant signals propagate as constants.", "quantifier": "every expression over the routing rules", "why_tests_cant": "All expressions.", "anchors": ["src/signal.rs: Signal, Routing, SignalFrame", "src/audionode.rs: route implementations", "src/audiounit.rs: latency"]}
{"id": "C47", "title": "FIR filtering and mixing", "statement": "fir(w) computes the convolution of its input with the weights; the mixing matrix node computes the matrix product; equal power panning preserves power.", "quantifier": "every weight vector, matrix and stream", "why_tests_cant": "All streams and sizes.", "anchors": ["src/fir.rs: Fir", "src/pan.rs: Mixer, Panner"]}
{"id": "C48", "title": "Resampling", "statement": "After reset, sample n of a resampler is the cubic interpolation of its generator's output at the time the speeds so far add up to, with negative speeds counted as zero, whatever the buffer held before. The generator is ticked exactly up to the last frame needed, each frame once and in order. At speed 1 the source is reproduced from its start; at whole speeds its frames are not changed; sources quadratic in time are resampled exactly, and the overshoot is at most an eighth of the range. At speed v a tone of w radians per sample becomes a tone of v w radians per sample, up to 3/32 w^3.", "quantifier": "every speed signal (including speeds above the buffer length) and every generator", "why_tests_cant": "All speed signals; ring of 128 samples.", "anchors": ["src/resample.rs: Resampler"]}
{"id": "C49", "title": "Envelopes", "statement": "The output of an envelope is, at each sample, on the line between the values of the envelope function at the ends of a segment, and segments are 3/4 to 5/4 of the interval long. So it stays in the range of the function, is exact for linear functions, and is off by at most the change of the function over 5/4 of the interval. It moves no faster than the function does. Processing in blocks gives what ticking gives, for every partition. The live ADSR stays in 0...1, rises linearly in the attack, is at the sustain level while the control stays positive for longer than attack and decay, is silent while the control has not been positive, and goes to zero within the release after the control goes to zero. Reset takes it back to its start, and none of this stops being true with time.", "quantifier": "every envelope function, with or without state and input, interval, sample rate, hash, control signal, ADSR parameters, sample and block partition", "why_tests_cant": "Segment ends are pseudorandom, functions and control signals are arbitrary, and a binary32 clock fails only after minutes.", "anchors": ["src/envelope.rs: Envelope, EnvelopeIn", "src/adsr.rs: adsr_live"]}
{"id": "C50", "title": "Oversampling ring", "statement": "The 2x oversampler runs the enclosed node exactly twice per sample, on the input with zeros inserted and filtered with the documented minimum phase halfband filter, and outputs every second sample of the enclosed node's filtered output. Reset makes the output independent of the past and of the ring position. Constants pass through an oversampled pass-through to within 0.11 percent. The frequency response and latency it reports are those of the signal it outputs.", "quantifier": "every enclosed node, input stream, number of channels, ring position and history", "why_tests_cant": "All streams and positions.", "anchors": ["src/oversample.rs: Oversampler"]}
{"id": "C51", "title": "Limiter output range", "statement": "The look-ahead limiter's output is limited to -1...1 as documented.", "quantifier": "every input stream", "why_tests_cant": "All streams; the first loud sample is the critical one.", "anchors": ["src/dynamics.rs: Limiter", "src/prelude.rs: limiter"]}
{"id": "C52", "title": "Editing a network does not disturb the units it does not name", "statement": "After an editing call that leaves a node alone, the state of that node's unit, and hence the sound it would go on making, is the same as if the edit had not been made, when the network is played on.", "quantifier": "all networks, all edits, all points in playback", "why_tests_cant": "Whether an edit restarts an unrelated generator depends on the history of edits and on how the unit treats pings", "anchors": ["src/net.rs: determine_order", " src/net.rs: ping", " src/noise.rs: Noise::set_hash"]}
{"id": "C53", "title": "Every edit changes exactly the connections it names", "statement": "connect, disconnect, connect_input, connect_output, disconnect_output, pass_through, pipe_input, pipe_output, pipe_all, push, replace and the rest set exactly the sources of the inputs they name, to what they name, and leave every other source, node and the arity alone. Playing a network changes no connection.", "quantifier": "all networks reachable by editing, playing and combining, all in-range calls", "why_tests_cant": "There are unboundedly many networks and positions; a test looks at a few ports of a few of them", "anchors": ["src/net.rs: connect", " src/net.rs: pipe_input", " src/net.rs: pipe_output", " src/net.rs: pipe_all", " src/net.rs: replace", " src/net.rs: connect_output"]}
{"id": "C54", "title": "Nested allpass never amplifies", "statement": "The output of allnest(eta, x) never carries more energy in total than its input, for every coefficient in [-1, 1] and every enclosed unit that does not amplify; if the enclosed unit is lossless then so is the allpass, so that allpasses can be nested.", "quantifier": "all input signals, all coefficients in [-1, 1], all enclosed passive units, all numbers of samples", "why_tests_cant": "tests run a few signals through a few coefficients; the bound is about sums over signals of every length", "anchors": ["src/delay.rs:AllNest::tick", "src/prelude.rs:allnest"]}
{"id": "C55", "title": "Wave levels and fades", "statement": "amplitude() is the greatest sample magnitude; normalize() scales every sample by the same factor so that the amplitude becomes 1 and leaves an empty or silent wave alone; fade_in, fade_out and fade multiply the samples by weights in (0, 1] that rise monotonically over the given time (at most the whole wave) and are mirror images of each other, touch nothing else and never index outside the wave.", "quantifier": "every wave, fade time and sample rate", "why_tests_cant": "needs all lengths, rates and sample values, including very small ones", "anchors": ["src/wave.rs: Wave::amplitude, amplify, normalize, fade_in, fade_out, fade"]}
{"id": "C56", "title": "A replacement during a crossfade waits and the latest wins", "statement": "A replacement that arrives while a node is crossfading does not disturb the crossfade under way and starts exactly when it is over (in block mode, at the end of the block in which it is over); of several such replacements only the latest is played; a replacement arriving at any other time starts at once.", "quantifier": "every unit, fade curve, number type, input and block, and every sequence of replacements", "why_tests_cant": "schedules of edits against samples and blocks are unbounded", "anchors": ["src/vertex.rs: Vertex::enqueue, next_phase, tick, process"]}
{"id": "C57", "title": "Conversions and response curves", "statement": "Interpolation and de-interpolation (linear, exponential, in 0..1 and -1..1) are inverse to each other, decibels and amplitude are inverse, a MIDI octave doubles the frequency; softsign stays in (-1, 1), softexp is positive and increasing and softmix leans to the smaller or larger argument as its bias says; square and triangle functions are periodic with the documented shape; dissonance lies in [0, 1] and is 0 exactly for equal frequencies.", "quantifier": "all real arguments in the documented domains", "why_tests_cant": "Continuous domains.", "anchors": ["src/math.rs: xerp, dexerp, lerp11, delerp11, db_amp, amp_db, midi_hz, semitone_ratio, softsign, softexp, softmix, sqr_hz, tri_hz, dissonance"]}
{"id": "C58", "title": "Noise functions stay in range", "statement": "ease_noise, spline_noise and their fractal sums return values in [-1, 1]; ease noise stays between the random values of the ends of its cell and takes them at integers. Spline noise moves at most 12/5 times as fast as its argument, ease noise at most 2L times as fast if its easing functions move at most L times as fast as theirs, and fractal sums of n octaves at most 2^(n-1) times as fast as the noise that they sum.", "quantifier": "every seed, position, easing function that keeps [0, 1], number of octaves and roughness", "why_tests_cant": "All seeds and positions.", "anchors": ["src/math.rs: AttoHash::hash01, AttoHash::hash11, ease_noise, spline_noise, fractal_noise, fractal_ease_noise"]}
{"id": "C59", "title": "Units in a slot run at the slot's sample rate", "statement": "Every unit that a slot plays or crossfades to runs at the sample rate last set on the slot.", "quantifier": "every interleaving of set, rendering, reset and set_sample_rate", "why_tests_cant": "Tests run at one sample rate.", "anchors": ["src/slot.rs: Slot::set", "src/slot.rs: SlotBackend::set_sample_rate"]}
{"id": "C60", "title": "Reported frequency responses are the true ones", "statement": "If a node or graph of filters, delays, mixers, panners, arithmetic and operators reports a frequency response r at some frequency, then feeding it a cosine of that frequency makes that output settle to a cosine of the same frequency with the amplitude and phase of r, up to a constant offset, from any filter state.", "quantifier": "every expression over the linear filters, every filter state, every sample rate and frequency, every parameter in its documented range, every history of settings", "why_tests_cant": "Tests compare responses with measured impulse responses for a few filters and frequencies; the claim is an asymptotic one over all parameters, all states and all compositions.", "anchors": ["src/audionode.rs: AudioNode::response, AudioNode::route", "src/filter.rs", "src/biquad.rs", "src/svf.rs: FixedSvf, Morph", "src/delay.rs: Delay, Tick", "src/fir.rs", "src/follow.rs: Follow", "src/pan.rs", "src/signal.rs"]}
{"id": "C61", "title": "Filters have their documented characteristics", "statement": "A filter takes a signal that tends to a constant to that constant times its gain at zero frequency, whatever its state: 1 for lowpole, follow, allpole and delays, 0 for highpole and dcblock, the sum of weights for fir, and for state variable filters 1 (lowpass, notch, allpass, bell, highshelf), 0 (highpass, bandpass), -1 (peak) or the gain (lowshelf). The state variable filters have the documented factors at half of the sample rate and levels at the cutoff (Q for lowpass, highpass and bandpass, 0 for notch, 1 for allpass, the gain for bell, its square root for shelves). The biquad lowpass, highpass, bell and Butterworth lowpass give the same signal as the state variable designs, the Butterworth level at the cutoff being -3 dB. allpole changes only phase, with the documented delay at low frequencies. lowpole's level falls and highpole's rises with frequency.", "quantifier": "all sample rates, cutoffs below half the sample rate, positive Q and gain, states and inputs, over the reals", "why_tests_cant": "The statement is about limits, and about every parameter; a test checks some frequencies and parameters with a tolerance.", "anchors": ["src/svf.rs: *Mode, SvfCoefs", "src/biquad.rs: BiquadCoefs, Biquad", "src/filter.rs: Lowpole, Highpole, DCBlock, Allpole", "src/follow.rs: Follow", "src/fir.rs: Fir"]}
{"id": "C62", "title": "Oscillators produce their waveforms", "statement": "A sine oscillator puts out the sine of its start phase plus the periods passed, under any sequence of input frequencies and in blocks of any sizes; ramp, saw, square and pulse oscillators follow the same phase, stay within -1...1 and equal the ideal waveform except within a sample of a jump; the summation formula oscillator puts out the documented sum of partials; a plucked string is a feedback loop of exactly one period with the gain asked for, and plays the same again after reset; phases are set and reset as documented; no oscillator panics, stops, or leaves the finite numbers.", "quantifier": "All start phases, sample rates and sequences of input frequencies, widths and roughness values; all divisions into blocks; all excitations of the string", "why_tests_cant": "Waveform identities must hold for every frequency sequence and block partition; a string fails only above a certain pitch, and stuck or NaN states arise only in particular ranges of frequency", "anchors": ["src/oscillator.rs:Sine", "src/oscillator.rs:Ramp", "src/oscillator.rs:PolySaw", "src/oscillator.rs:PolySquare", "src/oscillator.rs:PolyPulse", "src/oscillator.rs:Dsf", "src/oscillator.rs:Pluck", "src/oscillator.rs:Rossler", "src/oscillator.rs:Lorenz"]}
{"id": "C63", "title": "Wavetable synthesis plays what the table was made of", "statement": "A wavetable made from phases and amplitudes holds, for each of its pitches, one period of the sum of those partials that lie below 22 kHz, at least four samples per partial, normalized to a largest sample of 1. A wavetable oscillator plays at every sample the tables that belong to its frequency at the phase it has accumulated, independently of which table it used before, in ticks and in blocks alike, never with partials above 22 kHz, and a reset makes it forget its history. A wavetable made from a wave plays that wave. Reading between the samples of a table never overshoots them by more than 1/100000, and each partial is heard with the amplitude that the table gives it.", "quantifier": "all phase and amplitude functions, pitch ranges and table densities; all tables, frequency and phase inputs, histories and block partitions", "why_tests_cant": "Tests play a few named tables at a few frequencies; the choice of table depends on hints left by earlier frequencies, and the content of the tables on arbitrary functions.", "anchors": ["src/wavetable.rs:make_wave", "src/wavetable.rs:Wavetable", "src/wavetable.rs:WaveSynth", "src/wavetable.rs:PhaseSynth", "src/wavetable.rs:PulseWave"]}
{"id": "C64", "title": "Waveshapers have the shapes they name, sample by sample and in blocks", "statement": "Clipping limits the signal and leaves what is in range; tanh, atan and softsign shaping is odd, increasing and saturates at -1 and 1; crushing rounds to the nearest step and soft crushing is an increasing staircase through the same steps. An adaptive shape divides its input by the level of the signal, estimated with the given time to move halfway, and never by less than -60 dB. Processing a block gives the samples that ticks give.", "quantifier": "all shapes, hardnesses, inputs, nestings of adaptive shapes, sample rates and block lengths", "why_tests_cant": "Tests compare a few shapes on one random signal; halfway cases, negative hardness, nested adaptive shapes and the level after arbitrary signals are out of their reach.", "anchors": ["src/shape.rs:Shape", "src/shape.rs:Clip", "src/shape.rs:ClipTo", "src/shape.rs:Tanh", "src/shape.rs:Atan", "src/shape.rs:Softsign", "src/shape.rs:Crush", "src/shape.rs:SoftCrush", "src/shape.rs:Adaptive", "src/shape.rs:Shaper"]}
{"id": "C65", "title": "Frequency domain resynthesis", "statement": "For every window length from 4 to 32768 (a power of two), every processing function with a state and every input, the resynthesizer gives the processing function the spectra of Hann windows of the input beginning every quarter of a window, with right times and frequencies, and outputs the overlapped sum of what it makes of them; if an output is a copy of an input the input is reconstructed exactly with a latency of one window; a reset restores the new state; window lengths the opcode documents work.", "quantifier": "all processing functions and states, all numbers of inputs and outputs, all window lengths, all inputs of any length; real arithmetic and exact Fourier transforms", "why_tests_cant": "Exact reconstruction and the schedule of windows are claims about every input, processing function and window length; tests use a few signals at one length.", "anchors": ["src/resynth.rs:FftWindow", "src/resynth.rs:Resynth", "src/fft.rs:real_fft", "src/fft.rs:inverse_fft", "src/prelude.rs:resynth"]}
{"id": "C66", "title": "WAV files", "statement": "For every wave, writing it as a 32-bit WAV file and reading that file gives back the channels, the sample rate as an integer and every sample exactly, and a 16-bit file the samples clipped and rounded to 16 bits; whatever the writer does, it has got a prefix of the file without gaps; and if writing the file fails, then an error is returned.", "quantifier": "all waves, all binary32 samples, all writers that can fail at any byte of any write, both ways of compiling integer overflow", "why_tests_cant": "Headers and errors matter at sizes and failure points that tests do not reach: there is one failure point for each byte of each file.", "anchors": ["src/write.rs:Wave::write_wav16", "src/write.rs:Wave::write_wav32", "src/write.rs:write_wav_header", "src/math.rs:clamp11"]}
{"id": "C67", "title": "Filters that are not linear, and banks of filters", "statement": "The Moog filter and the lowrez and bandrez filters have outputs and state with a bound that depends only on bounds of input, cutoff and Q, whatever the inputs, settings and resets are; biquads with shapes of values at most 1 have outputs bounded by their coefficients, stable or not, with nonexpansive shapes they are stable, and with the identity as a shape they are plain biquads; each channel of a bank of biquads is the biquad with the coefficients of that channel, whatever settings the bank gets; and every cutoff below half of the sample rate works.", "quantifier": "all input sequences, parameters, settings, resets and sample rates, all shapes, all numbers of channels; real arithmetic for bounds, any arithmetic for banks, binary32 for the refutation", "why_tests_cant": "Boundedness of a recursion with feedback is a claim about every input of every length; a pole of the feedback gain sits at a single frequency per sample rate that tests do not pick.", "anchors": ["src/moog.rs:Moog", "src/rez.rs:Rez", "src/biquad_bank.rs:BiquadBank", "src/biquad.rs:FbBiquad", "src/biquad.rs:FixedFbBiquad", "src/biquad.rs:DirtyBiquad", "src/biquad.rs:FixedDirtyBiquad"]}
{"id": "C68", "title": "Settings, parameter inputs and constructors agree", "statement": "For every opcode with settings: after any history, a reset node is the node that the opcode constructs with the parameters that were set last, at the sample rate set last; a setting with the current parameters is not heard; a node with inputs for its parameters does what the node with settings does if it gets these settings before each sample, and with constant inputs what the opcode with these parameters does; settings panic only for a channel that does not exist; and every setting the documentation lists takes effect.", "quantifier": "all opcodes with settings, all histories of samples, settings, resets and sample rates, any arithmetic for settings and real arithmetic for inputs", "why_tests_cant": "Equality after any history cannot be enumerated: caches of parameters go wrong only for particular orders of settings, resets and sample rates.", "anchors": ["src/setting.rs:Setting", "src/filter.rs:Lowpole", "src/filter.rs:Highpole", "src/filter.rs:Allpole", "src/filter.rs:DCBlock", "src/biquad.rs:ButterLowpass", "src/biquad.rs:Resonator", "src/svf.rs:Svf", "src/svf.rs:FixedSvf", "src/moog.rs:Moog", "src/rez.rs:Rez", "src/follow.rs:Follow", "src/follow.rs:AFollow", "src/pan.rs:Panner", "src/dynamics.rs", "src/delay.rs:AllNest", "src/noise.rs:Hold", "README.md"]}
{"id": "C69", "title": "Reverbs are stable and fall silent, and resets and sample rates reach all of them", "statement": "A feedback delay network of lines that each lose energy never gives out more than a stated multiple of the energy it is given and falls off geometrically. reverb_stereo gives at most 2(a/(1-a))^2 times the energy of its input for every room size, time and damping from 0 to 2, and its tail falls by 60 dB in at most three times the given time; reverb4_stereo likewise with a rate that depends on the room size; reverb3_stereo is stable through every history of samples, resets and sample rates with every loop filter that adds no energy. A linear tap whose delay rises by at most e samples per sample, e up to 1/3, gives at most 1+2e times the energy it is given, however it moves otherwise, and reverb2_stereo is stable with every such motion of its 32 delays and every loop filter that adds no energy, if the loss in one pass outweighs that factor. Its own delays move by at most 0.0012 |speed| samples per sample, so it is stable whenever the modulation speed is at most 277 and the speed times the reverberation time is below 100. What is stable in this sense falls silent after its input. After reset a reverb plays as a new one, and its sounds take the same time at every sample rate.", "quantifier": "every input signal of every length, every room size, time, damping, diffusion, sample rate and delay lengths, every passive loop filter, every motion of the delays, every history of ticks, resets and rate changes", "why_tests_cant": "instability of a feedback network with 32 lines shows only for particular signals after long times, and no test can play all signals; an upper bound on all tails needs an argument about energy", "anchors": ["src/reverb.rs Reverb", "src/prelude.rs reverb_stereo", "src/prelude.rs reverb3_stereo", "src/prelude.rs reverb4_stereo", "src/prelude.rs reverb4_stereo_delays", "src/prelude.rs fdn", "src/feedback.rs Feedback", "src/feedback.rs FrameHadamard", "src/prelude.rs reverb2_stereo", "src/delay.rs TapLinear"]}
{"id": "C70", "title": "The update function of a dynamical system is called in time", "statement": "The function attached to a node with system() is called before the first sample and then before each tick or block at which at least dt seconds have passed since the last call, with the time since the start and since the last call; the intervals are at least dt and at most a block longer; ticked, the calls come every ceil(dt*rate) samples; blocks give the same sound as ticks; after a reset time starts again from zero; the time goes on for as long as the node plays.", "quantifier": "every enclosed node, update function with its own state, interval, sample rate, and history of ticks, blocks of any size, settings and resets", "why_tests_cant": "the schedule depends on accumulated time over unbounded histories and on how the host cuts them into blocks; the end of time is minutes away", "anchors": ["src/system.rs System", "src/prelude.rs system"]}
{"id": "C71", "title": "Shared variables show what was last stored, timers show stream time, atomic tables are read safely", "statement": "Every value read from a shared variable, and every sample of a var or var_fn unit, is what was last stored in it by any thread before the call; a block takes one value for all its samples. A timer shows the number of samples that went through it since it was made or reset, in ticks or blocks, divided by the sample rate. An atomic wavetable can be read at every phase in 0...1 while other threads change it, with results in the range of its contents; a synthesizer that reads one plays the table at the phase its frequencies add up to and never reads outside of it.", "quantifier": "for every history of stores, loads, ticks, blocks, resets and rate changes by any threads, every table, every phase and every finite frequency in binary32", "why_tests_cant": "The order of stores by other threads and the contents seen by each load are not under the control of a test; safety of unchecked conversions has to hold for every float.", "anchors": ["src/shared.rs: Shared", "src/shared.rs: Var", "src/shared.rs: VarFn", "src/shared.rs: Timer", "src/shared.rs: AtomicTable", "src/shared.rs: AtomicSynth"]}
{"id": "C72", "title": "Granular synthesis: grains tile time, on time and repeatably", "statement": "In a granular synthesizer each voice is a chain of grains, each starting when the envelope of the one before sets in, without gaps; the voices start evenly spread over the first grain; every grain is given to the player before the tick or block in which it starts; the generator is called at points of a helix with arguments in -1...1; the grains depend only on elapsed time and not on how it is divided into ticks and blocks; after a reset the same grains come again.", "quantifier": "all histories of ticks, blocks, resets, sample rates and seeds, all generators with an envelope shorter than the grain, all textures, voices, radii and players", "why_tests_cant": "Grain times follow from an unbounded history of generator answers, and block sizes, resets and sample rates may come at any moment; tests listen to one texture with one block size.", "anchors": ["src/granular.rs: Granular::new, helix_position, instantiate, instantiate_voices, reset, tick, process, set_sample_rate, set_hash"]}
{"id": "C73", "title": "Monitors are transparent and report the meter; declickers fade in once", "statement": "A monitor passes its input on unchanged and keeps what its meter should report in its shared variable, after ticks and blocks alike. A declicker multiplies the signal with a smooth curve from 0 to 1 of the time since creation or reset and is transparent after its duration, whatever the sizes of blocks; a block never panics.", "quantifier": "all meters and time scales, all histories of ticks, blocks, resets and sample rates; all durations; for panics all precisions of arithmetic", "why_tests_cant": "The level depends on the whole history of samples and sample rates; the length of the faded part of a block comes from a rounded division that may hit any boundary.", "anchors": ["src/dynamics.rs: Monitor, MeterState, Declick"]}
{"id": "C74", "title": "Loading a file gives the decoded track", "statement": "Wave::load and load_track return a wave that holds exactly the decoded packets of the selected track, in order, at their sample rate; a file that cannot be read or decoded completely, or a track that does not exist, is an error; loading never panics.", "quantifier": "all files: any tracks, packets, codecs and decoders", "why_tests_cant": "A test has a few good files; the behavior for read errors in the middle, changing formats and missing tracks needs damaged ones.", "anchors": ["src/read.rs: Wave::load, load_slice, load_track, load_slice_track, decode"]}
{"id": "C75", "title": "Operators with numbers and builder methods do what they say", "statement": "Negating an expression, or combining it with a number c using +, - or * on either side, negates every sample or combines every sample of every channel with c, to the bit; it is the same as combining with constant(c) on every channel, which is the same as a pipe to add(c), sub(c) or mul(c); the same holds for networks. phase(p) makes an oscillator opcode start from phase p and seed(s) makes a noise opcode start from seed s, wherever the expression is placed and whenever it is reset. interval(t) makes an envelope the one constructed with interval t. subsample(p) makes a filter read its parameter inputs every p samples, and does not matter if they do not change. Expressions that differ only in the bracketing of an associative operator play the same.", "quantifier": "all expressions, numbers, constants, inputs and lengths; all reachable networks; all oscillators and noise generators, phases and seeds, and histories of placing and resetting; all modes of the state variable filter, periods and inputs", "why_tests_cant": "Tests try an operator on one expression with exact arithmetic on short streams; they do not compare the rewritten forms (c - x is computed as -x + c) in floating point for all values, and no test combines a builder method with later hashing, resetting or nesting.", "anchors": ["src/combinator.rs: operators, An::phase, An::seed, An::interval, An::subsample", " src/net.rs: operators with f32", " src/svf.rs: Svf::tick", " src/audionode.rs: ping"]}
{"id": "C76", "title": "Chorus, flanger and phaser", "statement": "The chorus gives a fifth of the sum of its input and four copies of it, copy i delayed by between i times the separation and that plus the variation; in one sample the delays move by at most 3.77 times the variation times the modulation frequency of the copy, in samples, which limits how far a copy is out of tune. The flanger adds to its input a signal delayed by the delay function, which is fed back through tanh; it is bounded for every amount of feedback and every delay function. The phaser adds to its input the amount of feedback times what comes out of ten allpass filters, whose delays are set by the phase function, and which is fed back; with a steady phase and an amount within -1 ... 1 it amplifies the energy of its input by a bounded factor. With no feedback, flanger and phaser still have their effect. After reset each gives what a new one gives.", "quantifier": "all sample rates, seeds, parameters, control functions and input streams of any length", "why_tests_cant": "Stability and delay ranges are about every input, every control function and all times; tests listen to a few presets for a few seconds", "anchors": ["src/prelude.rs:chorus", "src/prelude.rs:flanger", "src/prelude.rs:phaser", "src/envelope.rs:Envelope", "src/delay.rs:Tap", "src/filter.rs:Allpole"]}
{"id": "C77", "title": "Opcodes for many nodes, rotation, three-point filters, channel counts and single samples", "statement": "busi, stacki, branchi, sumi and pipei build the nodes f(0), ..., f(N-1) in order and combine them as documented; busf and its kin call f with N evenly spaced numbers from 0 to 1 (1/2 if N is one), also with rounding. rotate turns the stereo frame by the given angle, scales its length by the gain, and rotations compose and undo each other. fir3(gain) has gain 1 at zero frequency, the given gain at the Nyquist frequency and falls steadily between. The type name Uk means k channels for every k. get_mono, get_stereo, filter_mono and filter_stereo return the successive samples of the node or unit, averaging or doubling channels as documented, and panic with other channel counts.", "quantifier": "all node counts, node generators, inputs and times; all angles, gains, frequencies and phases; all names U0 to U128; any number of calls", "why_tests_cant": "the nodes, counts, angles and frequencies are unbounded; tests use a few", "anchors": ["src/prelude.rs busi", "src/prelude.rs busf", "src/prelude.rs stacki", "src/prelude.rs branchi", "src/prelude.rs sumi", "src/prelude.rs pipei", "src/prelude.rs rotate", "src/prelude.rs fir3", "src/prelude.rs U90", "src/audionode.rs get_mono", "src/audiounit.rs get_mono"]}
{"id": "C78", "title": "Ready-made sounds and loudness curves", "statement": "The bass drum starts silent, decays exponentially and settles on its base pitch after 22.5 ms; the snare drum is a decaying mix of nine sinusoids and pink noise through a falling lowpass filter, starts silent and stays bounded at sample rates above 30 kHz; the cymbal is a decaying mix of three frequency-modulated square waves through a falling lowpass and a fixed highpass filter, starts silent, stays bounded at sample rates above 40 kHz, and its draws move its frequencies by at most 5 Hz; the Risset glissando is the sum of forty panned voices that hand over to one another without end, four in every octave; pebbles is the sum of a hundred gliding sines through a pinking filter and stays bounded, its pitches are rewritten every 10 ms and stay positive, and its gravity moves the ratio of two pitches towards the nearest integer; a_weight and m_weight are 1 at 1 kHz and never zero or undefined; dissonance_max is the most dissonant frequency; control signals from gen_lfo stay within 0...1.", "quantifier": "all sample rates from 1 kHz, all pitches, sharpnesses and node hashes, all times and samples, all frequencies, all choices of the Dna", "why_tests_cant": "The sounds run for as long as they are played and depend on pseudorandom sampling points and phases; a test hears one of them for a while.", "anchors": ["src/sound.rs: bassdrum, snaredrum, cymbal, pebbles, risset_glissando", "src/math.rs: a_weight, m_weight, dissonance_max, sin_hz", "src/gen.rs: gen_lfo", "src/prelude.rs: lowpass_q"]}
{"id": "C79", "title": "What a network reports about itself is right", "statement": "route of a network returns one label for each output and never panics. Without cycles, the labels are the one solution of the network's equations, and a network made with >>, |, ^, &, +, -, * or ! reports what its parts report. Over exact arithmetic: inputs that agree before time T give outputs that agree before T plus the reported latency; an output reported constant is that constant; and a network of filters, fed a cosine, settles to the cosine times the reported response. The latency reported by a network with cycles is meaningful too.", "quantifier": "all networks reachable by editing and combining, all units with correct analyses, all input streams, all frequencies", "why_tests_cant": "Tests compare a few networks with a few probes; the claim is about every graph, every stream and every time, and about limits for time to infinity.", "anchors": ["src/net.rs Net::route", "src/audiounit.rs AudioUnit::latency, response"]}
{"id": "C80", "title": "Sample-and-hold", "statement": "hold(v) samples its input and repeats the sample for a time between (1 - v)/f and (1 + v)/f seconds, chosen by the node's next pseudorandom number and rounded up to whole samples, where f is the frequency input at the moment of sampling. Without variability and at constant f every m-th input is held, m being sr/f rounded up. The input is sampled f times a second, and sampling goes on when the frequency has been zero for a moment.", "quantifier": "all variabilities, sample rates, input and frequency streams of any length, and all pseudorandom streams in [0, 1); for the last part, all binary64 inputs", "why_tests_cant": "Rounding of hold times accumulates without bound over a run and depends on the ratio of frequency and sample rate; freezing depends on the exact moment at which the frequency is zero.", "anchors": ["src/noise.rs: Hold", "src/prelude.rs: hold, hold_hz"]}
{"id": "C81", "title": "Resonators ring at their center and have constant noise gain", "statement": "A resonator struck by an impulse rings at its center frequency, decaying as exp(-pi f t / Q); its gain for white noise is the same whatever the center and Q; its half-power band is about center / Q wide; the gain does not depend on the bandwidth, and where a bandwidth in Hz is asked for, tones far outside it are attenuated.", "quantifier": "every sample rate, center below half of it, positive Q, length of signal, tone frequency", "why_tests_cant": "A test listens to one resonator for a while; the energy of an endless response and the shape of the band for every Q are limits and identities over the reals.", "anchors": ["src/biquad.rs:BiquadCoefs::resonator", "src/biquad.rs:Resonator", "src/hacker.rs:resonator_hz", "src/hacker32.rs:resonator_hz", "src/prelude.rs:resonator_hz"]}
{"id": "C82", "title": "Every unit of a network runs at the sample rate of the network", "statement": "However a network is built, edited, combined with others and played, and however its sample rate is changed, all its nodes - those that play, those that are being crossfaded in and those that wait - run at the sample rate that was set last; a commit sends nodes at that rate to the backend.", "quantifier": "all networks made by any sequence of edits, crossfades, combinations, sample rate changes and playing; all units; all sample rates", "why_tests_cant": "whether a node runs at the wrong rate depends on the order of edits, fades, combinations and rate changes; a test tries one order", "anchors": ["src/net.rs: Net::set_sample_rate, Net::push, Net::replace, Net::crossfade, Net::fade_in, Net::commit, Net::migrate, operators on Net", "src/vertex.rs: Vertex::enqueue"]}
{"id": "C83", "title": "Organ, soft saw and Hammond waves have their documented partials, and named waves can be mixed", "statement": "The organ wave emphasizes octave partials, the soft saw contains all partials and falls off like a triangle wave, and the Hammond wave emphasizes the first three partials; their tables are built without overflow or panic and contain exactly these partials. Saw, triangle, organ and soft saw waves of one pitch can be interpolated: each partial of a mix has the interpolated amplitude.", "quantifier": "every pitch and partial of the tables, every exact inverse Fourier transform, every proportion and loudness of a mix of two of the named waves, every partial", "why_tests_cant": "The number of partials and of mixes is unbounded; that a partial vanishes in a mix is inaudible in a test that looks at each wave alone.", "anchors": ["src/wavetable.rs:organ_table", "src/wavetable.rs:soft_saw_table", "src/wavetable.rs:hammond_table", "src/prelude.rs:organ, soft_saw, hammond"]}
{"id": "C84", "title": "Modulated filters stay bounded and fall silent", "statement": "While the frequency, Q and gain of a filter move from sample to sample, by its inputs or by settings, within ranges where every fixed setting is stable, its output has a bound that depends only on the ranges and on the level of its audio input, and when the audio stops the output dies away. With a steady Q above 1/2 the bound of the state variable filters is explicit, down to a cutoff frequency of 0 Hz: at low cutoff frequencies about twice the gain of the resonance.", "quantifier": "all histories of samples, settings, resets and changes of the sample rate within ranges, all modes of the filters", "why_tests_cant": "Instability under modulation depends on the sequence of parameters; every fixed setting that a test sweeps over is stable.", "anchors": ["src/svf.rs (Svf, FixedSvf)", "src/filter.rs (Lowpole, Highpole, Allpole)", "src/biquad.rs (Resonator, ButterLowpass)"]}
{"id": "C85", "title": "Filters are stable exactly below half of the sample rate", "statement": "The state variable filters (lowpass_hz, highpass_hz, bandpass_hz, notch_hz, peak_hz, allpass_hz, bell_hz, lowshelf_hz, highshelf_hz) are stable exactly if their cutoff frequency is above a multiple of the sample rate by less than half of the sample rate; in particular below half of the sample rate. For other cutoff frequencies a single nonzero sample followed by silence makes their output grow beyond any bound. butterpass_hz is stable for exactly the same cutoff frequencies, and lowpass grows beyond any bound also when the cutoff frequency moves above half of the sample rate. A biquad whose poles and zeros do not cancel is stable exactly if |a2| < 1 and |a1| < 1 + a2. resonator_hz is stable at every center frequency.", "quantifier": "all nine modes, all sample rates, cutoff frequencies, Q and gains except the special values at which the coefficients divide by zero or the filter does nothing (shelves: Q above 1/2); all inputs, all lengths; all movements of the cutoff frequency for lowpass", "why_tests_cant": "Instability is a statement about unbounded time and every bound; a test renders a few cutoff frequencies at the default sample rate, where they are below half of it, for a short time.", "anchors": ["src/svf.rs: SvfCoefs::lowpass, FixedSvf, Svf", "src/biquad.rs: butter_lowpass, resonator, ButterLowpass, Resonator, Biquad", "src/sound.rs: snaredrum, cymbal"]}
