{"id": "C01", "title": "XOR sharing round-trips and each single share hides the input", "statement": "Sharing a bit vector with XorSharing and reconstructing the two shares gives back exactly the input vector (same length, same bits), whatever randomness the generator delivered; and for either party the share it receives can be explained by every other input of the same length under exactly one choice of randomness.", "quantifier": "for every input bit vector of every length and every output of the random generator", "why_tests_cant": "the input space is unbounded and the hiding half is a statement about all inputs at once", "anchors": ["crates/seec/src/protocols/boolean_gmw.rs::XorSharing::share", "crates/seec/src/protocols/boolean_gmw.rs::XorSharing::reconstruct", "crates/seec/src/utils.rs::rand_bitvec"]}
{"id": "C02", "title": "Additive sharing round-trips over every ring width and hides the input", "statement": "Sharing a vector of w-bit ring elements with AdditiveSharing and reconstructing gives back exactly the input vector; each single share is compatible with every other input vector under exactly one choice of randomness.", "quantifier": "for every ring width, every vector and every random mask", "why_tests_cant": "2^(w*n) inputs times the same number of masks; wrap-around corner cases are everywhere", "anchors": ["crates/seec/src/protocols/arithmetic_gmw.rs::AdditiveSharing", "crates/seec/src/protocols/mod.rs::Ring"]}
{"id": "C03", "title": "A layer of scalar AND gates is evaluated correctly", "statement": "If both parties hold XOR shares of the operands of n AND gates and at least n valid multiplication triples, then after exchanging the layer message both compute shares that XOR to the AND of the reconstructed operands, gate by gate in order; exactly the last n triples are consumed and the untouched triples are still valid and aligned.", "quantifier": "for every n, all operand shares and all valid triples (also more triples than gates)", "why_tests_cant": "alignment of gates to triples (reverse iteration, split_off) has to hold for every length and every share value", "anchors": ["crates/seec/src/protocols/boolean_gmw.rs::compute_msg", "crates/seec/src/protocols/boolean_gmw.rs::evaluate_interactive", "crates/seec/src/evaluate.rs::and"]}
{"id": "C04", "title": "A layer of SIMD AND gates is evaluated correctly lane by lane", "statement": "If both parties hold XOR shares of the operand vectors of any number of SIMD AND gates with any (also different) lane counts and at least as many valid triples as lanes, both compute per-gate vectors whose XOR is the lane-wise AND of the reconstructed operands, with the per-gate lane counts preserved; exactly as many triples as lanes are consumed.", "quantifier": "for every list of gates, every list of lane counts and all valid triples", "why_tests_cant": "packing and unpacking of differently sized vectors cannot be exhausted by examples", "anchors": ["crates/seec/src/protocols/boolean_gmw.rs::compute_msg_simd", "crates/seec/src/protocols/boolean_gmw.rs::evaluate_interactive_simd"]}
{"id": "C05", "title": "Scalar and SIMD AND gates in the same layer are both evaluated correctly", "statement": "When one layer contains scalar AND gates and SIMD AND gates, and the layer's setup storage holds one valid triple per scalar gate and lane, both kinds of gates come out as the AND of their operands and no triple is used twice.", "quantifier": "for every layer composition and all valid triples", "why_tests_cant": "existing tests use triples whose two shares are equal, which masks triple mix-ups; only a statement over all valid triples settles it", "anchors": ["crates/seec/src/executor.rs::execute", "crates/seec/src/protocols/boolean_gmw.rs::compute_msg", "crates/seec/src/protocols/boolean_gmw.rs::compute_msg_simd"]}
{"id": "C06", "title": "Scalar AND-layer messages reveal nothing about the operands", "statement": "For a whole layer of scalar AND gates (SIMD layers: C54), for any own operand shares there is exactly one choice of the party's triple masks that produces a given message; so with uniform masks the message is uniform and independent of the operands.", "quantifier": "for every layer size, every operand vector and every message of the right size", "why_tests_cant": "a distribution statement over all inputs and all masks", "anchors": ["crates/seec/src/protocols/boolean_gmw.rs::compute_msg"]}
{"id": "C07", "title": "Arithmetic multiplication layers compute the product", "statement": "If both parties hold additive shares of the operands of n Mul gates and n valid arithmetic triples (c = a*b), the result shares add up to the product of the operands modulo 2^w, gate by gate.", "quantifier": "for every ring width, n, all shares and all valid triples", "why_tests_cant": "the only arithmetic test uses the insecure provider whose triples are all zero; correctness has to hold for every triple", "anchors": ["crates/seec/src/protocols/arithmetic_gmw.rs::compute_msg", "crates/seec/src/protocols/arithmetic_gmw.rs::evaluate_interactive"]}
{"id": "C08", "title": "Linear gates are correct without interaction", "statement": "Constants, XOR, inversion (boolean) and constants, addition, subtraction (arithmetic), evaluated locally by both parties, yield shares that reconstruct to the plaintext gate on the reconstructed inputs; SIMD versions do so lane by lane for operands with the same bit offset (other offsets: C53).", "quantifier": "for all shares, constants, ring widths and lane counts", "why_tests_cant": "all share combinations of all widths", "anchors": ["crates/seec/src/protocols/boolean_gmw.rs::evaluate_non_interactive", "crates/seec/src/protocols/boolean_gmw.rs::evaluate_non_interactive_simd", "crates/seec/src/protocols/arithmetic_gmw.rs::evaluate_non_interactive", "crates/seec/src/gate/base.rs::default_evaluate"]}
{"id": "C09", "title": "Layer iteration visits every gate exactly once and after its parents", "statement": "Iterating the layers of a circuit assembled through the public circuit API yields every gate exactly once; every parent of a gate appears in an earlier layer or earlier among the non-interactive gates of the same layer; a parent that is interactive is always in an earlier layer; the iterator terminates and never underflows its counters.", "quantifier": "for every circuit that can be built by adding gates and wires from existing gates to newer gates", "why_tests_cant": "the set of DAGs is infinite; a missed or repeated gate appears only for particular fan-in/fan-out shapes", "anchors": ["crates/seec/src/circuit/base_circuit.rs::BaseLayerIter::next", "crates/seec/src/circuit/base_circuit.rs::add_gate", "crates/seec/src/circuit/base_circuit.rs::add_wired_gate"]}
{"id": "C10", "title": "The number of communication rounds equals the multiplicative depth", "statement": "The layer in which an interactive gate is emitted is the largest number of interactive gates on any path into it, so the number of layers with interaction equals the maximum over all paths of the number of interactive gates (no round is wasted).", "quantifier": "for every circuit built through the API", "why_tests_cant": "optimality is a statement about all paths in all circuits", "anchors": ["crates/seec/src/circuit/base_circuit.rs::BaseLayerIter::next", "crates/seec/src/executor.rs::execute"]}
{"id": "C11", "title": "Two-party boolean GMW execution computes the circuit", "statement": "Running the executor for both parties on the same circuit with shares of the inputs and valid triples for each layer terminates without error, and the XOR of the two outputs is the plaintext evaluation of the circuit on the reconstructed inputs.", "quantifier": "for every well-formed circuit, every input, every input sharing, all valid triples and any previous content of the gate output buffers", "why_tests_cant": "the property ranges over all circuits, inputs, sharings and triples", "anchors": ["crates/seec/src/executor.rs::execute", "crates/seec/src/circuit/base_circuit.rs", "crates/seec/src/protocols/boolean_gmw.rs"]}
{"id": "C12", "title": "An executor can be reused: any history of executions stays correct", "statement": "Executing the same pair of executors any number of times, each time with new inputs, gives for every run the plaintext result for the inputs of that run, independent of earlier runs.", "quantifier": "for every finite history of inputs", "why_tests_cant": "stale values from previous runs could leak into later ones only for particular histories", "anchors": ["crates/seec/src/executor.rs::execute", "crates/seec/src/executor.rs::GateOutputs"]}
{"id": "C13", "title": "Triple consumption equals the interactive gate count and is input independent", "statement": "Over one execution the sum of all setup requests equals the circuit's reported interactive gate count (times lanes for SIMD circuits), the request sequence is the same for both parties and does not depend on the inputs; so preprocessing exactly the reported number of triples never runs dry.", "quantifier": "for every well-formed circuit and all inputs", "why_tests_cant": "a mismatch would only appear on circuits with particular layer shapes", "anchors": ["crates/seec/src/executor.rs::execute", "crates/seec/src/circuit/dyn_layers.rs::interactive_count_times_simd", "crates/seec/src/circuit/base_circuit.rs::interactive_count"]}
{"id": "C14", "title": "The two parties cannot deadlock and the result does not depend on scheduling", "statement": "For every interleaving of the two parties' steps and of message deliveries over FIFO channels of any capacity of at least one message, execution can always continue until both are done and both end with the same outputs.", "quantifier": "for every schedule of sends and receives and every channel capacity >= 1", "why_tests_cant": "the number of interleavings is exponential and tests only see the ones the runtime happens to choose", "anchors": ["crates/seec/src/executor.rs::execute", "crates/seec-channel/src/lib.rs::channel"]}
{"id": "C15", "title": "Inlining a sub-circuit preserves its meaning", "statement": "add_sub_circuit called with one input gate per sub-circuit input returns gates whose values are those of the sub-circuit's outputs when its inputs carry the values of the given gates, for all gate kinds including subtraction; gates present before keep their values.", "quantifier": "for every host circuit, sub-circuit and input assignment", "why_tests_cant": "operand order and id remapping errors show only for particular gate kinds and shapes", "anchors": ["crates/seec/src/circuit/base_circuit.rs::add_sub_circuit", "crates/seec/src/circuit/base_circuit.rs::add_wire"]}
{"id": "C16", "title": "Bristol circuits convert to circuits with the same function", "statement": "from_bristol either returns an error or a circuit whose plaintext evaluation on the input wires gives the values that the Bristol gate list assigns to the last output wires.", "quantifier": "for every syntactically valid Bristol circuit that assigns wires before reading them, and all inputs", "why_tests_cant": "infinitely many circuits; wire numbering can be arbitrary", "anchors": ["crates/seec/src/circuit/base_circuit.rs::from_bristol", "crates/seec/src/parse/bristol.rs"]}
{"id": "C17", "title": "Parsing a printed Bristol circuit gives the circuit back", "statement": "Printing a circuit description in the Bristol fashion text format and parsing it yields the same header, gates, wires and operand order; the same holds for the older basic format.", "quantifier": "for every circuit description and both header formats", "why_tests_cant": "text formats with optional headers are ambiguous only for particular numbers", "anchors": ["crates/seec/src/parse/bristol.rs", "crates/seec/src/parse/mod.rs"]}
{"id": "C18", "title": "Secret operators build gates with the advertised truth tables", "statement": "The expression operators on secrets (and, xor, or, not, with secrets and with constants) add gates whose evaluated value is the corresponding boolean function of the operands, and leave all existing gates' values unchanged.", "quantifier": "for every expression, every circuit it is appended to and all input values", "why_tests_cant": "composition over all expressions", "anchors": ["crates/seec/src/secret.rs", "crates/seec/src/circuit/builder.rs"]}
{"id": "C19", "title": "low_depth_reduce is a fold with logarithmic depth", "statement": "For an associative operation low_depth_reduce over n >= 1 items returns the left-to-right combination of all items, uses exactly n-1 operations and nests them at most ceil(log2 n) deep; for n = 0 it returns nothing.", "quantifier": "for every list length and every associative operation", "why_tests_cant": "has to hold for all lengths", "anchors": ["crates/seec/src/secret.rs::low_depth_reduce"]}
{"id": "C20", "title": "Gate-range connections between circuits find every connected gate", "statement": "After any sequence of connect calls, the outgoing and parent queries for a gate return exactly the gates that some connect call related to it.", "quantifier": "for every history of inserted range pairs and every queried gate", "why_tests_cant": "range containers fail only for particular overlap patterns", "anchors": ["crates/seec/src/circuit/circuit_connections.rs::RangeConnections", "crates/seec/src/utils.rs::RangeInclusiveStartWrapper"]}
{"id": "C21", "title": "Grouping gate ids into ranges loses nothing", "statement": "Grouping a sequence of gate ids into consecutive ranges and expanding the ranges again gives the original sequence.", "quantifier": "for every sequence of gate ids", "why_tests_cant": "fails only for particular repetition patterns", "anchors": ["crates/seec/src/circuit/builder.rs::group_gates_iter"]}
{"id": "C22", "title": "Circuits split into sub-circuits execute every gate exactly once in dependency order", "statement": "For a circuit made of a main circuit and connected sub-circuits (scalar or SIMD), layer iteration yields every reachable gate of every circuit exactly once and only after all its parents, including the parents in other circuits.", "quantifier": "for every acyclic set of circuits and connections", "why_tests_cant": "cross-circuit wake-ups interact with per-circuit iterators in unboundedly many ways", "anchors": ["crates/seec/src/circuit/dyn_layers.rs::CircuitLayerIter::next"]}
{"id": "C23", "title": "Precomputed layers behave like dynamic layers", "statement": "precompute_layers returns a circuit whose layers, parents and interactive counts are the same as those obtained by iterating the original circuit.", "quantifier": "for every circuit", "why_tests_cant": "deduplication of equal layers and truncation fail only for particular repetition patterns", "anchors": ["crates/seec/src/circuit/static_layers.rs"]}
{"id": "C24", "title": "Setup storage neither loses nor duplicates nor misaligns triples", "statement": "Over any sequence of append, split_off_last and remove_first calls on the boolean or arithmetic triple storage, the triples handed out plus the triples left are exactly the triples put in, each once, with a, b, c still belonging together.", "quantifier": "for every history of storage operations", "why_tests_cant": "histories are unbounded", "anchors": ["crates/seec/src/protocols/mod.rs::SetupStorage", "crates/seec/src/mul_triple/boolean/mod.rs", "crates/seec/src/mul_triple/arithmetic/mod.rs"]}
{"id": "C25", "title": "File-backed triple storage serves both parties matching triples", "statement": "When both parties' files were written from the same triple stream, any common sequence of precompute and request calls returns to both parties aligned (matching) triples, never the same triple twice, and exactly as many as requested as long as the file has enough.", "quantifier": "for every request history, every write batch size and every amount", "why_tests_cant": "batch boundaries interact with request sizes in unboundedly many ways", "anchors": ["crates/seec/src/mul_triple/storage.rs"]}
{"id": "C26", "title": "The trusted dealer gives the two parties matching triples under every schedule", "statement": "For every interleaving in which the two parties' requests reach the dealer, the k-th batch party 0 receives and the k-th batch party 1 receives are the two shares of the same triples and no party ever receives both shares of a batch.", "quantifier": "for every arrival order of requests and all amounts", "why_tests_cant": "the failing interleavings are timing dependent", "anchors": ["crates/seec/src/mul_triple/boolean/trusted_provider.rs::handle_request", "crates/seec/src/mul_triple/boolean/trusted_seed_provider.rs::handle_request"]}
{"id": "C27", "title": "Seed-compressed triples expand to valid triples", "statement": "When the dealer answers one party with a seed and the other with a seed and the c-share, the expanded triples of the two parties are valid (c0^c1 = (a0^a1)&(b0^b1)), for every seed and amount.", "quantifier": "for every pseudo-random generator, every seed pair and every amount", "why_tests_cant": "all seeds and lengths; word-granular truncation of the generated bits matters", "anchors": ["crates/seec/src/mul_triple/boolean/trusted_seed_provider.rs", "crates/seec/src/mul_triple/boolean/mod.rs::random_with_fixed_c", "crates/seec/src/mul_triple/boolean/mod.rs::compute_c_owned"]}
{"id": "C28", "title": "OT-based boolean triples are valid", "statement": "The triples two parties derive from random oblivious transfers in both directions are valid for every amount, and at least the requested number is delivered.", "quantifier": "for every amount, all choice bits and all OT messages", "why_tests_cant": "all message bits and amounts", "anchors": ["crates/seec/src/mul_triple/boolean/ot_ext.rs"]}
{"id": "C29", "title": "OT-based arithmetic triples are valid", "statement": "Every batch of arithmetic triples that two parties derive from correlated oblivious transfer satisfies c0+c1 = (a0+a1)*(b0+b1) mod 2^w, also for second and later batches and for precomputed triples.", "quantifier": "for every ring width, amount and call history", "why_tests_cant": "correctness of later calls depends on generator state of earlier calls", "anchors": ["crates/seec/src/mul_triple/arithmetic/ot_ext.rs", "crates/zappot/src/ot_ext/mod.rs"]}
{"id": "C30", "title": "OT extension delivers the chosen message", "statement": "After the extension protocol the receiver's i-th output equals the sender's i-th message selected by the receiver's i-th choice bit, for any arrival order of the receiver's matrix rows and for several consecutive extensions on the same base OTs.", "quantifier": "for every number of OTs divisible by 8, all choice bits, all base OT seeds, all row arrival orders", "why_tests_cant": "row order is scheduling dependent; all choices and seeds", "anchors": ["crates/zappot/src/ot_ext/mod.rs::Sender::send_random", "crates/zappot/src/ot_ext/mod.rs::Receiver::receive_random"]}
{"id": "C31", "title": "A truncated OT extension exchange is reported as an error", "statement": "If the channel is closed before all rows of the receiver's matrix arrived, the sender's call returns an error instead of OT outputs.", "quantifier": "for every point at which the channel can be closed (crash point)", "why_tests_cant": "crash points are not exercised by tests", "anchors": ["crates/zappot/src/ot_ext/mod.rs::Sender::send_random"]}
{"id": "C32", "title": "Correlated OT delivers the correlated pair", "statement": "After correlated OT extension the sender holds x, and the receiver holds x if its choice bit is 0 and the correlation function applied to x otherwise, for every correlation function.", "quantifier": "for every correlation function, index and choice vector", "why_tests_cant": "higher-order quantification over correlation functions", "anchors": ["crates/zappot/src/ot_ext/mod.rs::send_correlated_bytes", "crates/zappot/src/ot_ext/mod.rs::receive_correlated_bytes"]}
{"id": "C33", "title": "Base OT delivers the chosen key and rejects inconsistent peers", "statement": "In the Chou-Orlandi base OT the receiver's i-th key equals the sender's key selected by its i-th choice; a sender message whose opening does not match the commitment or a wrong number of points leads to an error.", "quantifier": "for every cyclic group, secret scalars, hash function, number of OTs and choices", "why_tests_cant": "algebraic identity over all scalars", "anchors": ["crates/zappot/src/base_ot/mod.rs"]}
{"id": "C34", "title": "The puncturable PRF expansion agrees everywhere except at the punctured point", "statement": "Sender and receiver expansions of each tree agree on all leaves except the receiver's point, where they differ by exactly the sender's value; this holds for all trees, thread counts and arrival orders of the tree groups.", "quantifier": "for every depth, domain, number of trees (multiple of 8), all points, all base OTs and every arrival order", "why_tests_cant": "trees are exponentially large and arrival order is scheduling dependent", "anchors": ["crates/zappot/src/silent_ot/pprf.rs::Sender::expand", "crates/zappot/src/silent_ot/pprf.rs::Receiver::expand"]}
{"id": "C35", "title": "Silent OT gap derandomisation is correct and keeps delta secret", "statement": "The gap positions satisfy the correlated OT relation for both choices, and the values sent for gap positions can be explained by every possible delta (they are masked by a key the receiver does not know).", "quantifier": "for every number of gap OTs, all choices, all deltas", "why_tests_cant": "secrecy is a statement about all deltas at once", "anchors": ["crates/zappot/src/silent_ot/mod.rs::derandomize_gap"]}
{"id": "C36", "title": "Quasi-cyclic reduction computes the remainder modulo x^p - 1", "statement": "modp writes to bit j < p of the destination the XOR of all input bits at positions congruent to j modulo p, and zero to every later bit.", "quantifier": "for every prime-like modulus, every input length and all bits", "why_tests_cant": "bit offsets inside blocks give unboundedly many alignment cases", "anchors": ["crates/zappot/src/silent_ot/quasi_cyclic_encode.rs::modp", "crates/zappot/src/silent_ot/quasi_cyclic_encode.rs::bit_shift_xor"]}
{"id": "C37", "title": "Interleaved point positions are unique and inside the output", "statement": "The interleaving maps (tree, leaf) pairs injectively into the output range, in both interleaved formats, so noisy positions of different trees never collide.", "quantifier": "for every tree count (multiple of 8), domain and leaf", "why_tests_cant": "an index arithmetic statement over unbounded sizes", "anchors": ["crates/zappot/src/silent_ot/pprf.rs::interleave_point"]}
{"id": "C38", "title": "Bit-matrix transpose is correct and never accesses memory out of bounds", "statement": "For all dimensions accepted by the fast path the fast transpose places bit (r,c) at (c,r), equals the simple transpose, and all its unchecked memory accesses are inside the buffers.", "quantifier": "for all numbers of rows and columns divisible by 8 and at least 16, and all contents", "why_tests_cant": "unchecked accesses are undefined behaviour for sizes the tests do not try", "anchors": ["crates/seec-bitmatrix/src/sse2_transpose.rs", "crates/seec-bitmatrix/src/portable_transpose.rs", "crates/seec-bitmatrix/src/simple.rs", "crates/seec-bitmatrix/src/lib.rs::transpose"]}
{"id": "C39", "title": "Bit-matrix multiplication is the GF(2) product", "statement": "mat_mul returns the matrix with entry (i,j) equal to the XOR over k of A(i,k) and B(k,j) for all conforming dimensions, so products can be chained.", "quantifier": "for all conforming dimensions and contents", "why_tests_cant": "storage padding matters only for particular dimension products", "anchors": ["crates/seec-bitmatrix/src/lib.rs::mat_mul"]}
{"id": "C40", "title": "ABY2 sharing round-trips and linear gates are correct", "statement": "Sharing a value in the ABY2 public/private-delta form and reconstructing returns the value; XOR, inversion and constants act correctly on shared values.", "quantifier": "for all values and all deltas", "why_tests_cant": "all share combinations", "anchors": ["crates/seec/src/protocols/aby2.rs::DeltaSharing", "crates/seec/src/protocols/aby2.rs::evaluate_non_interactive"]}
{"id": "C41", "title": "ABY2 AND gates of any fan-in compute the conjunction", "statement": "With setup data produced by the setup phase for the gate's inputs, evaluating an n-input AND gate yields a sharing of the conjunction of the n inputs.", "quantifier": "for every fan-in, all shares and all deltas", "why_tests_cant": "fan-in is unbounded; 2^n delta products", "anchors": ["crates/seec/src/protocols/aby2.rs::compute_delta_share", "crates/seec/src/protocols/aby2.rs::setup_data_circ"]}
{"id": "C42", "title": "Arithmetic-to-boolean conversion is correct", "statement": "The a2b gadget applied to an additively shared w-bit value yields w boolean-shared bits that are the binary representation of the value.", "quantifier": "for every ring width, value and sharing", "why_tests_cant": "all values and widths", "anchors": ["crates/seec/src/protocols/mixed_gmw.rs::a2b", "crates/seec/src/protocols/mixed_gmw.rs::evaluate_non_interactive"]}
{"id": "C43", "title": "The low-depth adder adds", "statement": "depth_optimized_add on two n-bit operands builds gates whose value is the n-bit sum modulo 2^n with multiplicative depth logarithmic in n.", "quantifier": "for every width n the function supports (8, 16, 32, 64; all others panic) and all operands", "why_tests_cant": "2^(2n) operand pairs for every n", "anchors": ["crates/seec/src/protocols/mixed_gmw.rs::depth_optimized_add"]}
{"id": "C44", "title": "Boolean-to-arithmetic conversion is correct", "statement": "A B2A gate applied to boolean shared bits yields an additive sharing of the number these bits represent.", "quantifier": "for every ring width, value, sharing and shared random bits", "why_tests_cant": "all values and widths", "anchors": ["crates/seec/src/protocols/mixed_gmw.rs::evaluate_interactive", "crates/seec/src/protocols/mixed_gmw.rs::compute_msg"]}
{"id": "C45", "title": "Several conversions in one layer do not disturb each other", "statement": "When a layer holds several A2B or several B2A conversions, each converts its own input and no random bit is used twice.", "quantifier": "for every number of conversions in a layer", "why_tests_cant": "depends on consumption order over unbounded layer sizes", "anchors": ["crates/seec/src/protocols/mixed_gmw.rs::compute_msg", "crates/seec/src/protocols/mixed_gmw.rs::evaluate_interactive"]}
{"id": "C46", "title": "Mixed share storage accepts any mix of shares in any order", "statement": "Collecting or extending a mixed share storage with any sequence of boolean and arithmetic shares stores the same sequence, and reading index i gives the i-th share.", "quantifier": "for every sequence of shares", "why_tests_cant": "representation changes depend on the order of share kinds", "anchors": ["crates/seec/src/protocols/mixed_gmw.rs::MixedShareStorage"]}
{"id": "C47", "title": "In-memory multi-party channels connect the right parties", "statement": "In the channels created for n local parties, a message party i sends to party j is received by party j from party i and by nobody else, in sending order.", "quantifier": "for every number of parties and every sequence of messages", "why_tests_cant": "pairings for all n", "anchors": ["crates/seec-channel/src/multi.rs::new_local", "crates/seec-channel/src/multi.rs::send_to"]}
{"id": "C48", "title": "Sending to an unknown party sends nothing", "statement": "send_to with a recipient list containing an unknown id returns an error and no recipient receives anything.", "quantifier": "for every recipient list and position of the unknown id", "why_tests_cant": "atomicity over all lists", "anchors": ["crates/seec-channel/src/multi.rs::send_to"]}
{"id": "C49", "title": "Communication statistics account for every byte", "statement": "At any time the bytes recorded over all phases plus the bytes still in the counters equal the bytes transferred, and with 'record unaccounted as previous phase' switched on traffic between phases is credited to the previous phase.", "quantifier": "for every interleaving of traffic with record calls", "why_tests_cant": "traffic arrives asynchronously", "anchors": ["crates/seec-channel/src/util.rs::Statistics"]}
{"id": "C50", "title": "AlignedVec is memory safe under every operation history", "statement": "For every history of new, with_capacity, reserve, push, pop, resize, truncate, clone and drop, reads and writes stay inside the live allocation, memory is freed exactly once with the layout it was allocated with, no element is dropped twice, and the observable contents are those of a plain vector.", "quantifier": "for every operation history", "why_tests_cant": "undefined behaviour is invisible to tests", "anchors": ["crates/aligned-vec/src/lib.rs"]}
{"id": "C51", "title": "SIMD shares are not freed while still needed", "statement": "A SIMD gate output released by the executor is never read later in the same execution.", "quantifier": "for every circuit with SIMD sub-circuits", "why_tests_cant": "use-after-release needs a particular cross-circuit dependency", "anchors": ["crates/seec/src/circuit/base_circuit.rs::BaseLayerIter::next", "crates/seec/src/executor.rs::execute"]}
{"id": "C52", "title": "Integer logarithm helpers are exact", "statement": "log2_floor and log2_ceil return floor and ceiling of the binary logarithm for every positive machine integer.", "quantifier": "for every positive usize", "why_tests_cant": "2^64 inputs", "anchors": ["crates/zappot/src/util/mod.rs::log2_ceil", "crates/bitpolymul/src/lib.rs::log2_ceil"]}
{"id": "C53", "title": "SIMD vectors are combined lane by lane whatever gates produced them", "statement": "XOR of two SIMD values is lane-wise, also when the operands were produced by different gates of an earlier interactive layer (whose internal bit offsets may differ), so SIMD circuits with any lane count compute the same function in each lane.", "quantifier": "for every lane count, every number of SIMD gates in the producing layer, all values", "why_tests_cant": "word-level operations agree with lane-level ones only for particular alignments; the tests use none of the others", "anchors": ["crates/seec/src/utils.rs::BitVecExt", "crates/seec/src/protocols/boolean_gmw.rs::evaluate_interactive_simd", "crates/seec/src/protocols/boolean_gmw.rs::evaluate_non_interactive_simd"]}
{"id": "C54", "title": "SIMD layer messages are masked for every way the provider hands out triples", "statement": "For every bit of a SIMD layer message there is a triple bit that masks it, also when the provider cuts the requested triples out of a larger precomputed batch or returns more than requested.", "quantifier": "for every batch length, request size and lane count", "why_tests_cant": "an unmasked message still gives the right result, so no functional test can notice", "anchors": ["crates/seec/src/protocols/boolean_gmw.rs::compute_msg_simd", "crates/seec/src/mul_triple/boolean/mod.rs::split_off_last", "crates/seec/src/mul_triple/boolean/ot_ext.rs::request_mts"]}
{"id": "C55", "title": "A sub-circuit call compiled into the builder computes the called function", "statement": "Executing a circuit in which main calls sub-circuits (each called any number of times) gives the same outputs as the circuit in which every call is inlined.", "quantifier": "for every set of sub-circuits, call structure and inputs", "why_tests_cant": "call structures are unbounded", "anchors": ["crates/seec/src/circuit/builder.rs::connect_sub_circuit", "crates/seec/src/circuit/builder.rs::into_circuit", "crates/seec/src/executor.rs::execute"]}
{"id": "C56", "title": "Both parties iterate the layers of a multi-circuit program in the same order", "statement": "The layers of a circuit made of several circuits, and the order of circuits and gates in every layer, do not depend on the iteration order of the hash map that holds the iterators of the active circuits, so two parties (whose hash maps are seeded differently) process the same gates in the same order.", "quantifier": "for every set of circuits and connections and every iteration order of the map in every call", "why_tests_cant": "hash map orders are random per process and agree by chance in most runs", "anchors": ["crates/seec/src/circuit/dyn_layers.rs::CircuitLayerIter::next"]}
{"id": "C57", "title": "Silent OT gives correlated and random OTs for every code", "statement": "For matching base OTs, running correlated silent OT gives the requested number of blocks with a_i = b_i xor c_i*delta, where c is the codeword of the receiver's noise positions (packed into the least significant bit or as a separate vector); random silent OT gives the receiver the message selected by its choice; every configuration made from a number of OTs works.", "quantifier": "for every code (quasi-cyclic, Silver, ExAcc, ExConv; any public polynomials or matrices), number of OTs, base OTs, choices, seeds, thread and message order and hash function", "why_tests_cant": "the tests run one size per code, for which the size dependent paths agree", "anchors": ["crates/zappot/src/silent_ot/mod.rs::correlated_silent_send", "crates/zappot/src/silent_ot/mod.rs::correlated_silent_receive", "crates/zappot/src/silent_ot/mod.rs::recv_compress", "crates/zappot/src/silent_ot/quasi_cyclic_encode.rs::reduce", "crates/zappot/src/silent_ot/quasi_cyclic_encode.rs::configure", "crates/zappot/src/silent_ot/ex_conv_code.rs::configure"]}
{"id": "C58", "title": "Boolean triples from silent OT are valid and their shares are codeword bits", "statement": "The triples both parties derive from one silent OT in each direction satisfy c = a*b position by position, for equal requests the triples handed out correspond, and the handed-out a-shares are outputs of the code (not raw noise positions).", "quantifier": "for every code, number of OTs, base OTs, choices, seeds and hash function", "why_tests_cant": "wrong or predictable triples from rare sizes give correct results for most inputs; the distribution of shares is not visible to a functional test", "anchors": ["crates/seec/src/mul_triple/boolean/silent_ot.rs::precompute_mts", "crates/seec/src/mul_triple/boolean/silent_ot.rs::request_mts", "crates/seec/src/mul_triple/boolean/mod.rs::split_off_last"]}
{"id": "C59", "title": "Sharing, reconstruction and gates of tensor ABY2", "statement": "Bits and matrices shared by either party reconstruct to the shared values; constants, inverters, XOR, AND and matrix multiplication gates turn shares of their operands into shares of their result.", "quantifier": "for every dimension, value, mask, randomness and both parties", "why_tests_cant": "tests multiply a few matrices; the roles of public and private parts can be mixed up in ways that cancel for some values", "anchors": ["crates/seec/src/protocols/tensor_aby2.rs::share_tensor", "crates/seec/src/protocols/tensor_aby2.rs::plain_delta_to_share_tensor", "crates/seec/src/protocols/tensor_aby2.rs::reconstruct_tensor", "crates/seec/src/protocols/tensor_aby2.rs::compute_delta_share", "crates/seec/src/protocols/tensor_aby2.rs::evaluate_non_interactive", "crates/seec/src/protocols/tensor_aby2.rs::share_constant"]}
{"id": "C60", "title": "Tensor ABY2 computes the circuit", "statement": "Setting up the gate outputs, building and executing the setup circuit with GMW, sharing the inputs and executing the circuit reconstructs to the plain outputs of the circuit.", "quantifier": "for every circuit of tensor gates, input owners, seeds, inputs and triple source", "why_tests_cant": "circuits, dimensions and masks are unbounded; the tests run two small circuits", "anchors": ["crates/seec/src/protocols/tensor_aby2.rs::setup_gate_outputs", "crates/seec/src/protocols/tensor_aby2.rs::setup_output_share", "crates/seec/src/protocols/tensor_aby2.rs::setup_data_circ", "crates/seec/src/protocols/tensor_aby2.rs::AbySetupProvider::setup"]}
{"id": "C61", "title": "What a party sees during a boolean execution is independent of the other's secrets", "statement": "In an execution of a boolean circuit the messages a party receives are uniformly distributed: for all inputs of both parties and all setup data of the receiver, every transcript of the right shape occurs for exactly one choice of the sender's valid triples. Hence two executions that differ only in the other party's secrets look the same to a party, up to the outputs.", "quantifier": "for every circuit, inputs of both parties, setup data, transcript and role", "why_tests_cant": "tests check outputs; leaking intermediate values through the messages does not change any output", "anchors": ["crates/seec/src/executor.rs::Executor::execute", "crates/seec/src/protocols/boolean_gmw.rs::compute_msg", "crates/seec/src/protocols/boolean_gmw.rs::evaluate_interactive"]}
{"id": "C62", "title": "Connecting several parties wires every pair exactly once", "statement": "If all parties call multi::connect with the same list of distinct addresses, in every interleaving no call panics or reports a duplicate message, all calls return after finitely many steps, and afterwards party i receives from j on exactly the channel on which j sends to i, with one channel per ordered pair and no other entries.", "quantifier": "for every number of parties, list of addresses and interleaving of accepting, connecting and receiving", "why_tests_cant": "the tests connect two or three parties on one machine under whatever interleaving happens; interleavings and party counts are unbounded", "anchors": ["crates/seec-channel/src/multi.rs::connect", "crates/seec-channel/src/multi.rs::listen_for_remotes", "crates/seec-channel/src/multi.rs::connect_to_remotes"]}
{"id": "C63", "title": "Connecting with a time limit returns the first success or the last error", "statement": "tcp::connect_with_timeout returns a connection exactly if one of the attempts started before the time limit succeeds, and otherwise the error of the last attempt; it does not panic.", "quantifier": "for every time limit and every sequence of attempts with start times and outcomes", "why_tests_cant": "outcomes and timing of attempts depend on the environment", "anchors": ["crates/seec-channel/src/tcp.rs::connect_with_timeout"]}
{"id": "C64", "title": "Converting a FUSE module keeps its meaning", "statement": "The circuit that the FUSE converter builds for a module computes, when executed with mixed GMW, the outputs of the module: every node applies its operation to the outputs of its input nodes at the given offsets, constants have the value of their payload, calls give the outputs of the called circuit, and a module without its entry point is rejected.", "quantifier": "for every module, word width, inputs, shares and setup data", "why_tests_cant": "modules are unbounded; the tests execute two files, the expected output of one marked as very likely not correct", "anchors": ["crates/seec/src/parse/fuse/mod.rs::FuseConverter::convert_module", "crates/seec/src/parse/fuse/mod.rs::FuseConverter::add_fuse_sub_circ", "crates/seec/src/parse/fuse/mod.rs::FuseConverter::add_node"]}
{"id": "C65", "title": "Calls of sub-circuit functions add the circuit of the called function", "statement": "In every history of calls of functions marked #[sub_circuit], installed builders and finished builders, a finished circuit holds for each call made on its builder the circuit that the function builds for the input size, with one circuit per function and size, and a panic in one call does not affect other calls.", "quantifier": "for every history of operations, number of functions, sizes and builders", "why_tests_cant": "histories are unbounded; the tests use one builder at a time", "anchors": ["crates/seec-macros/src/sub_circuit.rs::sub_circuit", "crates/seec/src/circuit/builder.rs::CircuitBuilder::global_into_circuit", "crates/seec/src/circuit/builder.rs::CircuitBuilder::into_circuit", "crates/seec/src/circuit/builder.rs::CircuitBuilder::install", "crates/seec/src/circuit/builder.rs::CircuitBuilder::clear_caches"]}
{"id": "C66", "title": "The AES generator reads its key stream once and in order", "statement": "For any number of AesRng generators and any history of next_u32, next_u64, fill_bytes, random blocks, fork and from_rng calls on them, in any interleaving, each call is answered from the next unread words of the stream AES_key(0), AES_key(1), ... of its generator: no stream byte is used by two calls, buffer refills lose nothing, new generators start at counter 0 under a key that is a stretch of the parent's stream used for nothing else, the calls panic exactly when the counter is exhausted, and the blocks of a fresh generator are pairwise different. A fill can be split after any multiple of four bytes without changing the bytes. cr_hash_blocks and cr_hash_slice_mut hash every block as cr_hash_block does, and blocks survive their byte conversions.", "quantifier": "all ciphers (AES as an arbitrary function of key and block), all seeds, all numbers of generators and all histories of calls", "why_tests_cant": "the unit test draws two arrays and checks that they differ; reads across the end of the 32-word buffer, mixed read sizes and forks are not exercised, and a repeated counter would go unnoticed", "anchors": ["crates/zappot/src/util/aes_rng.rs::AesRngCore::generate", "crates/zappot/src/util/aes_rng.rs::AesRng::fork", "crates/zappot/src/util/aes_rng.rs::AesRngCore::from_seed", "crates/zappot/src/util/aes_hash.rs::AesHash::cr_hash_slice_mut", "crates/zappot/src/util/block.rs::Block"]}
{"id": "C67", "title": "Sub-channels connect the right ends and calls in a common order complete", "statement": "In every interleaving of the parties' sub_channel, sub_channel_with, multi_sub_channel and sync calls, with parties closing or losing connections at any time: the end a party receives in its m-th call with a peer belongs to the channel the peer made in its m-th call with this party, with the same message type, and the other way round; every sub-channel is used in one call; the results of a party follow its calls; a call or sync that completes with a message implies that the peer has completed all earlier calls with this party and has sent its message of this one; a call returns an error only if a peer of it has closed or lost its connections (for sync: before the second receive) or has sent something else in its place. If all parties make their calls in an order common to all and nobody closes, no call returns an error, some party can always go on until all calls have returned, the number of steps is bounded by the calls, and at the end every pair has completed exactly its common calls.", "quantifier": "all numbers of parties, call sequences, schedules, queue capacities of at least one (safety: all capacities), closing times and lost messages", "why_tests_cant": "the tests open one or two channels between two or three parties in one process; mixed-up ends need particular interleavings, and blocking shows only under particular schedules", "anchors": ["crates/seec-channel/src/lib.rs::sub_channel", "crates/seec-channel/src/lib.rs::sub_channel_with", "crates/seec-channel/src/lib.rs::sync", "crates/seec-channel/src/multi.rs::multi_sub_channel", "crates/seec-channel-macros/src/lib.rs::sub_channels_for"]}
{"id": "C68", "title": "Messages of arithmetic multiplication layers reveal nothing about the operands", "statement": "For every layer of arithmetic GMW multiplication gates, every share of the triples held by the receiver and all operand shares of the sender, every message of the right shape is sent for exactly one choice of the sender's triple shares that is valid together with the receiver's.", "quantifier": "all ring widths, numbers of gates, triple shares, operand shares and messages", "why_tests_cant": "a statement about all choices of the masks; tests only see results, and with the zero triples used in the tests nothing is masked anyway", "anchors": ["crates/seec/src/protocols/arithmetic_gmw.rs::ArithmeticGmw::compute_msg", "crates/seec/src/mul_triple/arithmetic/mod.rs::MulTriples"]}
{"id": "C69", "title": "A session of the ABY2.0 protocol shows a party nothing beyond its inputs and the outputs", "statement": "For every circuit with AND gates of at most two operands, both parties, all inputs and all random streams: whatever other inputs the peer has, there is a change of the private stream of the peer, depending on the inputs only, after which the party receives and sends the same masked inputs and the same messages with the same own setup data; if the outputs of the circuit are the same, so are the output shares of the peer.", "quantifier": "all circuits (main circuit and sub-circuits), assignments of the inputs to the parties, inputs of both parties, streams of the private and joint generators and setup data", "why_tests_cant": "tests run with one set of seeds and compare outputs; that the view of a party does not depend on the inputs of the peer is a statement about all streams", "anchors": ["crates/seec/src/protocols/aby2.rs::BooleanAby2::setup_gate_outputs", "crates/seec/src/protocols/aby2.rs::DeltaSharing", "crates/seec/src/protocols/aby2.rs::BooleanGate::compute_delta_share", "crates/seec/src/executor.rs::Executor::execute"]}
{"id": "C70", "title": "The private mail search answers the query for every mail", "statement": "For every two sets of XOR shares of keywords, modifier chain and mails with the same lengths, and every duplication factor: both parties build the same circuit with as many inputs as they prepare bits, and executing it gives shares of one bit per mail, in order: the first keyword occurs in the (repeated) mail, inverted if the first chain bit is set, combined with each further keyword by OR or AND and with or without inversion as the next two chain bits say; characters are compared on their six low bits. Every query has exactly one answer. The search panics exactly if there is no keyword, the chain has fewer than 2n-1 bits, or a keyword is empty and there are mails.", "quantifier": "all keywords, chains, mails (decoded bytes) and their shares, duplication factors, words sizes and triple providers", "why_tests_cant": "the example has no tests; the number of pairs of keyword positions, lengths, chain bits and shares is unbounded", "anchors": ["crates/seec/examples/privmail.rs::priv_mail_search", "crates/seec/examples/privmail.rs::create_search_circuit", "crates/seec/examples/privmail.rs::create_comparison_circuit", "crates/seec/examples/privmail.rs::create_chaining_circuit", "crates/seec/examples/privmail.rs::base64_string_to_input"]}
{"id": "C71", "title": "The AES-CBC example encrypts the padded data in CBC mode under the given key", "statement": "For every Bristol file that computes a block cipher from block and key: the circuit that build_enc_circuit makes for k blocks, executed by two parties on shares of key, IV and k blocks, gives shares of the k ciphertext blocks of CBC mode (each block XORed with the previous ciphertext block, the first with the IV, and enciphered under the key). It is built exactly for whole blocks. The data reach the circuit padded as PKCS#7 says, key, IV and data with the bytes in order and the most significant bit of each byte first, which is what validate compares with.", "quantifier": "all Bristol circuits with 256 inputs and 128 outputs, numbers of blocks, keys, IVs, data, shares, word sizes and triple providers", "why_tests_cant": "the example has no tests, validate is optional and runs on one key and zero data; block numbers, keys and shares are unbounded", "anchors": ["crates/seec/examples/aes_cbc.rs::build_enc_circuit", "crates/seec/examples/aes_cbc.rs::aes_cbc_chunk", "crates/seec/examples/aes_cbc.rs::aes128", "crates/seec/examples/aes_cbc.rs::get_data", "crates/seec/examples/aes_cbc.rs::execute"]}
{"id": "C72", "title": "The AES-CBC example with sub-circuit calls computes the same, and can be built once per process", "statement": "For every Bristol file that computes a block cipher from block and key: the circuit that build_enc_circuit with use_sc makes for k blocks consists of the main circuit and one shared copy of the cipher called k times; executed by two parties on shares of key, IV and k blocks, in any order of the sub-circuits within a layer, it gives shares of the k ciphertext blocks of CBC mode, as the circuit with the cipher inlined does. Finishing the circuit takes the cipher out of the static in which it is kept, and a second build with at least one block panics.", "quantifier": "all Bristol circuits with 256 inputs and 128 outputs, numbers of blocks, keys, IVs, data, shares, word sizes, triple providers and iteration orders of the hash maps", "why_tests_cant": "the example has no tests; the ranges of the connections overlap in the key for every block, and block numbers, keys, shares and iteration orders are unbounded", "anchors": ["crates/seec/examples/aes_cbc.rs::build_enc_circuit", "crates/seec/examples/aes_cbc.rs::aes128", "crates/seec/src/circuit/builder.rs::connect_sub_circuit", "crates/seec/src/circuit/builder.rs::connect_to_main", "crates/seec/src/circuit/builder.rs::into_circuit"]}
{"id": "C73", "title": "Circuits compiled by the Bristol tool compute the Bristol function in every lane", "statement": "For every Bristol circuit with inputs and outputs whose wires are in range and which can be evaluated, the circuit produced by the compile command of the bristol example (with or without --simd, with or without --dyn-layers) reports its numbers of inputs, lanes and interactive gates rightly, executes without error on shares of any inputs with exactly that number of triples, and the outputs reconstruct in every lane to the value of the Bristol circuit on the inputs of that lane.", "quantifier": "all Bristol circuits, all SIMD sizes that are a positive multiple of the word size (and no SIMD size), both kinds of layers, all orders of visiting circuits in a layer, all inputs, all shares, all setup data", "why_tests_cant": "Tests cannot run all Bristol circuits, SIMD sizes and inputs; the compile command has no test at all.", "anchors": ["crates/seec/examples/bristol.rs::compile", "crates/seec/src/circuit/mod.rs::ExecutableCircuit::precompute_layers", "crates/seec/src/circuit/dyn_layers.rs::From<BaseCircuit> for Circuit", "crates/seec/src/circuit/base_circuit.rs::load_bristol", "crates/seec/src/circuit/builder.rs::into_circuit"]}
{"id": "C74", "title": "Every run of a benchmark with a given circuit computes that circuit with just the triples it reports", "statement": "For a circuit compiled from a Bristol circuit and given to BenchParty by explicit_circuit, two parties with the same options complete every run, all runs end in the same states, the setup precomputes exactly the number of triples that the run uses, and the outputs are in every lane the function applied to the fake inputs; with the insecure provider this holds for whatever its fixed seed generates, in all request patterns on which the parties agree. No sequence of setter calls reaches the arm of bench that is marked unreachable. Without explicit_circuit only the first run benchmarks the circuit of the global builder: later runs panic (precomputed layers) or run an empty circuit (dynamic layers).", "quantifier": "all Bristol circuits, SIMD sizes, kinds of layers, numbers of runs, providers, seeds, generators of fake inputs, sequences of setter calls and sequences of requests", "why_tests_cant": "A benchmark prints times and never compares outputs, so a wrong or empty run is not noticed; tests cannot cover all circuits, option combinations and numbers of repetitions.", "anchors": ["crates/seec/src/bench.rs::BenchParty::bench", "crates/seec/src/bench.rs::BenchParty::explicit_circuit", "crates/seec/src/bench.rs::BenchParty::insecure_setup", "crates/seec/src/mul_triple/boolean/insecure_provider.rs::InsecureMTProvider", "crates/seec/src/circuit/mod.rs::ExecutableCircuit::interactive_count"]}
{"id": "C75", "title": "The mean of run results is the average per phase, rounded down, over all runs", "statement": "RunResult::mean has an entry for exactly the phases that occur in some run; each entry is the sum over all runs divided by the number of runs, rounded down, where a run without the phase counts as zero. The total bytes, the setup time and the online time of the mean are at most the averages of the runs' totals, and less than one unit per phase below them. The mean of equal runs is that run, and no data gives the empty result without a division by zero.", "quantifier": "all lists of run results, all phases including custom ones", "why_tests_cant": "There is no test of mean; rounding and phases missing in some runs show only for particular combinations of runs.", "anchors": ["crates/seec-channel/src/util.rs::RunResult::mean", "crates/seec-channel/src/util.rs::RunResult::total_bytes_sent", "crates/seec-channel/src/util.rs::RunResult::setup_ms", "crates/seec-channel/src/util.rs::DivAssign<usize> for CountPair"]}
{"id": "C76", "title": "Polynomials in the frequency domain: safe memory accesses, products and sums, use by the quasi-cyclic encoder", "statement": "No sequence of calls of new, clone, resize, encode, mult, mult_eq, add, add_eq and decode_with_cache on any polynomials and caches lets the C code access memory outside of a buffer: a call succeeds or panics. If the C code transforms correctly, encoding two slices of equal length, multiplying and decoding gives all coefficients of the product over GF(2), a sum gives the sum, whatever the target or the cache held before, and operands of different transform size and targets of a wrong length panic. One row of the quasi-cyclic encoder gives the sum of the products of the public polynomials and the parts of the row, whatever earlier rows left in the reducer. Slices of different lengths with the same transform size are accepted, but higher coefficients of the product are dropped.", "quantifier": "all sequences of calls, all slices, all sizes below 2^32, all contents of reused polynomials and caches, all C libraries that transform correctly", "why_tests_cant": "tests multiply two random polynomials of one size with fresh objects and compare with the swapped product; they do not reuse objects at other sizes and cannot see accesses outside of a buffer", "anchors": ["crates/bitpolymul/src/lib.rs::FftPoly::encode", "crates/bitpolymul/src/lib.rs::FftPoly::mult", "crates/bitpolymul/src/lib.rs::FftPoly::add", "crates/bitpolymul/src/lib.rs::FftPoly::decode_with_cache", "crates/zappot/src/silent_ot/quasi_cyclic_encode.rs::MultAddReducer::reduce"]}
{"id": "C77", "title": "Tracking readers and writers are transparent and count exactly the traffic", "statement": "For every sequence of polls, a tracking reader and writer return what the wrapped ones return and leave them in the same state. The counters are the bytes that writes report as accepted and the bytes that reads appended to the buffer since the last reset, also for reads that are pending or fail. With frames, every frame delivered or given to the sink counts its length and four bytes. On a connection that loses nothing the sender has at any time counted what the receiver has counted and what is under way. A frame that the sink refuses is counted as sent.", "quantifier": "all wrapped readers, writers, sinks and streams, all sequences of calls and results (partial writes, pending, errors), all interleavings of the two ends", "why_tests_cant": "tests compare counters after complete transfers; partial writes, pending reads that delivered bytes and refused frames do not occur in them", "anchors": ["crates/seec-channel/src/util.rs::TrackingWriter", "crates/seec-channel/src/util.rs::TrackingReader", "crates/seec-channel/src/util.rs::TrackingReadWrite"]}
{"id": "C78", "title": "The tree of AND gates computes the conjunction of its inputs in logarithmic depth", "statement": "create_and_tree(d) for d from 1 to 31 is a well-formed circuit with 2^(d-1) inputs, 2^(d-1) - 1 AND gates and one output, of multiplicative depth d - 1, and its output is the conjunction of all inputs; two parties that execute it on shares get shares of the conjunction. For depth 0 and from depth 32 on it panics.", "quantifier": "all depths, all inputs, all shares and all suitable triples", "why_tests_cant": "benchmarks and tests build the tree for a few depths and do not compare outputs for all inputs", "anchors": ["crates/seec/src/private_test_utils.rs::create_and_tree"]}
{"id": "C79", "title": "The execution helpers of the tests return the value of the circuit on the given inputs", "statement": "The helpers that share test inputs (truth values, unsigned integers, tuples, vectors) give two shares of equal length that reconstruct to the bits of the values in order, least significant bit first. execute_circuit on them returns the values of the circuit on these bits, and rejects inputs of another length; execute_bristol returns the value of the function in the file. The share of an integer for the first party does not depend on the integer; a truth value is given to the second party as it is.", "quantifier": "all inputs, all circuits with scalar gates, all Bristol circuits with the side conditions of C16, all generators", "why_tests_cant": "these helpers are the tests' own oracle: an error in them would make tests pass or fail for wrong reasons", "anchors": ["crates/seec/src/private_test_utils.rs::into_shares", "crates/seec/src/private_test_utils.rs::into_input", "crates/seec/src/private_test_utils.rs::execute_circuit", "crates/seec/src/private_test_utils.rs::execute_bristol"]}
{"id": "C80", "title": "Executing an arithmetic circuit yields shares of the values of its outputs", "statement": "Two parties that execute a circuit of additions, subtractions, multiplications, constants, inputs and outputs with ArithmeticGmw on additive shares get additive shares of the values of the output gates modulo 2^w, for valid multiplication triples.", "quantifier": "all arithmetic circuits without SIMD, all ring sizes, all shares, all providers", "why_tests_cant": "tests use the insecure provider with zero triples only, for which the claim holds; other valid triples give wrong results", "anchors": ["crates/seec/src/protocols/arithmetic_gmw.rs::evaluate_interactive", "crates/seec/src/executor.rs::execute", "crates/seec/src/mul_triple/arithmetic/insecure_provider.rs::request_mts"]}
