# Formal model of SEEC in Rocq (Coq 8.16.1)

The source is `/repo` (encryptogroup/SEEC, pinned).  It is read as text; nothing
of it is built or run.  The model is in `rocq/theories/`.

## Conventions

* One area = up to four files: `XModel.v` (functions that mirror the Rust code,
  no proofs, every definition cites file and lines), `XSpec.v` (the
  independent specification, no model helper is used), `XProofs.v` (lemmas) and
  `XTheorems.v` (the property theorems, each with a concrete instance `Cxx_case` that
  meets its hypotheses, and `Print Assumptions`).
* Panics, `Err` results, integer underflow and out-of-bounds accesses are
  explicit error values (`None`, or an `err` constructor).  A theorem that says
  "terminates without error" says the result is `Some`.
* Loops over iterators are structural recursion; `while` loops take fuel and the
  theorems prove that the stated fuel suffices.
* Randomness (generators), hashes, AES and group operations are universally
  quantified parameters (section variables discharged at `End Section`).
* If a property is false of the faithful model, a theorem named `..._refuted`
  gives a concrete witness by computation, and `..._partial` proves it under the
  exact side condition found.

## Trusted base

* The Coq 8.16.1 kernel (including `vm_compute`).
* The hand translation Rust -> Gallina in the `*Model.v` files.
* Behaviour of external crates is modelled, not verified.  In particular:
  * petgraph `Graph`: node ids are consecutive from 0; `neighbors_directed`
    enumerates the newest edge first.
  * bitvec 1.0.1 `BitVec`: a word buffer, a head offset below the word size and a
    length; `to_bitvec`, `clone` and `split_off` keep the head offset of the
    slice they copy and zero the dead bits; `as_raw_slice`/`into_vec` expose
    whole words without shifting; `extend`/`push`/`collect` act on live bits;
    `from_vec` starts at head 0.
  * tokio/remoc channels: reliable FIFO queues.
* `Print Assumptions` output for every theorem is produced in the build; the
  summary is kept at the end of this file.

## Properties

The last column is the status in MANIFEST.json; what is missing or false is in the note
there and beside the theorem.

| id | what is modelled | how it is proved | status |
|----|------|------|------|
| C01 | `XorSharing` on bit lists | round trip by induction; unique randomness for each input | proved |
| C02 | `AdditiveSharing` on `Z` modulo `2^w` | same, modular arithmetic | proved |
| C03 | `compute_msg`/`evaluate_interactive` of BooleanGmw on lists with the reverse iteration and `split_off` | list lemmas on alignment plus the Beaver identity | proved |
| C04 | the SIMD pair on the bitvec model (word buffers, offsets) | word-level zip = bit-level zip when offsets agree | proved |
| C05 | both of the above on one storage, in executor order | witness that a layer with scalar and SIMD ANDs is wrong; `_partial` for layers of one kind | partial |
| C06 | as C03/C04 | the message map is a bijection in the masks | proved |
| C07 | ArithmeticGmw layer | correct exactly when the stated condition on the triples holds (the message masks `y` with `c`); witness | partial |
| C08 | linear gates of both protocols | case analysis, modular arithmetic | proved |
| C09 | `BaseCircuit` construction API and `BaseLayerIter` | invariant on pending counters, all circuits | proved |
| C10 | same | level invariant relating layer number and longest path | proved |
| C11 | executor for two parties, BooleanGmw | abstract schedule soundness + C03 + C09 | proved |
| C12 | repeated execute on the same output buffers | induction on history | proved |
| C13 | request trace of the executor | counting invariant | proved |
| C14 | two processes with bounded FIFO queues | progress + confluence for all schedules | proved |
| C15 | `add_sub_circuit` | simulation by induction for commutative gates; witness for `Sub` (operands reversed) | partial |
| C16 | `from_bristol` | wire-map invariant; witnesses for circuits with undefined wires | partial |
| C17 | Bristol grammar as a parser over characters | round trip by induction; witness for the ambiguous basic header | partial |
| C18 | `Secret` operators on the circuit builder | value preservation under circuit extension; all operators, any nesting | proved |
| C19 | `low_depth_reduce` | strong induction on length | proved |
| C20 | `RangeConnections` insert and lookups | theorem for disjoint or equal ranges; witness for nested ranges | partial |
| C21 | `group_gates_iter` | theorem under the exact condition; witness for repeated starts | partial |
| C22 | `CircuitLayerIter` over several circuits | schedule invariant, for at most one wire per sub-circuit input; witness for two wires | partial |
| C23 | `precompute_layers`, `add_layer`, `LayerIterator`, counts of static_layers.rs function by function over the multi-circuit model | invariant over the sequence of `add_layer` calls (record of every copy starts with its history) giving equality with the dynamic views under three stated conditions; execution on them via `bool_exec_sound` and a schedule that never releases; six refutation witnesses where they fail | partial |
| C24 | `SetupStorage` | refinement to a multiset/list of triples over histories | proved |
| C25 | `MTStorage` file batches | simulation of both parties over request histories | partial |
| C26 | trusted dealer state machine | invariant for alternating arrivals; witness for racing requests | partial |
| C27 | seed provider with an abstract generator | algebra on bit lists with word-granular generation | proved |
| C28 | boolean OT triples: both parties with the OT extension of C30 inside | algebra; histories of requests | proved |
| C29 | arithmetic OT triples and the generator state of both sides | first batch valid; witness for the second | partial |
| C30 | OT extension with row messages in any order | bit-matrix algebra, permutation invariance | proved |
| C31 | same with truncated streams | witness of silently wrong outputs; `_partial` for the checks that exist | partial |
| C32 | correlated OT on top of C30 | algebra with arbitrary correlation | proved |
| C33 | base OT over an abstract commutative group | group algebra | proved |
| C34 | GGM trees, both parties, any group order, both formats | induction on tree depth, then on the groups; panics for other sizes | partial |
| C35 | gap derandomisation | correctness; secrecy refuted | partial |
| C36 | `modp` on blocks | bit-level induction | partial |
| C37 | `interleave_point` | arithmetic | partial |
| C38 | transpose loops | "every write is correct and every index is written" + bounds | proved |
| C39 | `mat_mul` | theorem when sizes match the storage word; witnesses for padded rows | partial |
| C40 | ABY2 sharing and linear gates | case analysis | proved |
| C41 | ABY2 AND with setup | fan-in 2 proved up to the two-party execution; witness for fan-in >= 3 | partial |
| C42 | `a2b` | adder correctness + sharing | partial |
| C43 | `depth_optimized_add` | prefix-carry invariant by induction | proved |
| C44 | B2A gate | algebra on bits | proved |
| C45 | several conversions per layer | witnesses; `_partial` for one conversion per layer, up to whole programs | partial |
| C46 | `MixedShareStorage` | theorem for the orders that work; witnesses for the others | partial |
| C47 | `new_local` | index arithmetic, FIFO model | proved |
| C48 | `send_to` | case analysis | proved |
| C49 | statistics counters | conservation by induction over events; refuted for the unaccounted option | partial |
| C50 | `AlignedVec` over an abstract heap | refinement over histories; refuted for clone of non-copy elements | partial |
| C51 | freeing of SIMD outputs, one and several circuits | schedule invariant; positive when SIMD gates read elsewhere have no reader in their own circuit, witness otherwise | partial |
| C52 | log2 helpers | `N.log2` | proved |
| C53 | bitvec offsets through SIMD layers | `_partial` for lane counts divisible by the word size; witness otherwise | partial |
| C54 | same, masks | `_partial` for aligned batches; witness for cut batches | partial |
| C55 | `MultiModel` circuits run by the C11 executor; `inline_all` is the specification | schedule invariant of C22 gives the executor's schedule condition; values by the flattened ids; partial (one wire per sub-circuit input, one SIMD size) | partial |
| C56 | the hash map of the layer iterator as an arbitrary rearrangement before every step | determinism of the sorted layers | proved |
| C57 | `SilentModel`: codes, compression, packing, gap, random OT on top of the PPRF of C34 | linearity of the codes over GF(2) gives the correlation for every encoder with fitting parameters; configurations by arithmetic; the panic witness needs a primality proof by trial division | partial |
| C58 | `precompute_mts` and `request_mts` of the silent provider | Beaver identity on C57; one noise position per tree gives the refutation for ExConv | partial |
| C59 | `TensorModel`: shares, sharing, gates | entry by entry: matrix products are XOR sums (C39), the two delta shares add up to the masked product | partial |
| C60 | `TensorModel`: setup of the gate outputs, setup circuit, evaluation shares | two-party simulation as for C41; the setup circuit is built by induction over the interactive gates and executed by C11; what does not fit panics | partial |
| C61 | `PartyModel`: one party of the executor | two-party runs are pairs of single-party runs; layer by layer the masks in the message are a bijection (C06) and received messages determine the continuation | partial |
| C62 | `ConnectModel`: per party its outgoing connections, listener and maps; steps accept, join, receive in any order | invariant over a matrix of connection states; progress by cases; each step lowers a rank by one | partial |
| C63 | `ConnectModel.connect_with_timeout` over a list of attempts | induction over the attempts | partial |
| C64 | `FuseModel`: decoded modules, conversion node by node into a mixed circuit (calls inlined) | each node is simulated by instructions of the mixed programs of C45, then C45 for execution; concrete executions for the refutations | partial |
| C65 | `SubCircModel`: heap of shared circuits, builders, static caches, flag; operations call, install, finish, drop | refinement against lists of calls, invariant with a ghost tag per cell | partial |
| C66 | `RngModel`: counter, buffer of 32 words, all calls, histories over numbered generators | refinement against (key, position) pairs; stretches of a history are sorted | proved |
| C67 | `SubChanModel`: parties with lists of calls, bounded FIFO queues, rounds of one send and one receive per peer, closing | invariant: received messages are a prefix of the sent ones per pair; progress by the party at the earliest round of the script; work measure | proved |
| C68 | `ArithGmwModel` compute_msg | linear congruences: a message occurs iff gcd(a, 2^w) divides a known difference; odd a are units | partial |
| C69 | `Aby2Model` and `PartyModel`: setup of the masks, sharing of the inputs, execution by both parties with their messages | two sessions run in step with equal public values: the other masks differ by the change of the plain values; a concrete circuit with symbolic streams for the refutation | partial |
| C70 | `PrivMailModel` on `BuilderModel`: the functions of the example gate by gate, from decoded bytes to the outputs | each function adds gates whose values are the intended bits under every valuation; bits to bytes by induction; C11 for the execution | proved |
| C71 | `CbcModel` on `BuilderModel` and `InlineModel`: the circuit of the example with the cipher inlined for each block; casts and bit reversals of key and data | inlining keeps the invariants of built circuits; induction on the blocks over all valuations; C16 for the cipher, C11 for the execution; bits of words and bytes by `testbit`; witness for the key order | partial |
| C72 | `CbcScModel`: the same example with `--use-sc`: pushing the shared circuit, `connect_sub_circuit`, `connect_to_main`, `into_circuit` | the connections built are exactly one wire per bit (the interval maps hold one range per block, key and result of each call, although the key ranges start at the same gate); the multi-circuit satisfies the hypotheses of C55 with an explicit ranking; the values along the wires give CBC by induction on the blocks | proved |
| C73 | `BristolToolModel`: `compile` of the bristol example: loading, SIMD sizes of the called and the main circuit, one call, outputs, `into_circuit`, `precompute_layers` | the main circuit and the connections are computed exactly; the two circuits satisfy the hypotheses of C55 (nothing in a loaded circuit reads its outputs) and of C23 (each circuit is used once, so copies cannot part); the values along the wires give the Bristol function lane by lane | proved |
| C74 | `BenchModel`: the insecure provider, the setters of `BenchParty`, the choice of the provider and of the circuit, fake inputs, one run and the loop over the runs | the two parties' insecure providers stay in equal states, and the triples of one state are consistent; the requests of a run sum to the count that the circuit reports (C13_calls_total), so that the precomputed triples suffice; C73 gives the outputs | proved |
| C75 | `RunResultModel`: `RunResult` with its maps as lists of entries, `mean`, totals, `setup_ms`, `online_ms` | induction over runs and entries: merging adds per phase; division is bounded entry by entry | proved |
| C76 | bitpolymul/src/lib.rs with the C functions as parameters and accesses outside of a buffer as an outcome, and the loop of quasi_cyclic_encode.rs 79-90, 202-235 (FftModel) | the lengths of the buffers are an invariant of every sequence of calls; products by the assumed meaning of the C functions and degree bounds; the loop of the reducer by induction, linked to qc_reduce of SilentModel | proved |
| C77 | `TrackModel`: `TrackingWriter`, `TrackingReader`, `TrackingReadWrite` with all polls, around any state machines | induction over sequences of polls, beside the same sequence without tracking; an invariant of a lossless connection for the balance | proved |
| C78 | `AndTreeModel`: `create_and_tree` on the model of the circuit API | an invariant of the loops gives the closed form of the circuit (the parents of the i-th AND gate are the gates 2i and 2i + 1); values and depth by induction over layers; execution by C11 | proved |
| C79 | `TestUtilModel`: `into_shares` and `into_input` for XOR sharing, `execute_circuit` and `execute_bristol` with the insecure provider of `BenchModel` | the shares of the parts are concatenated (C01 for integers); execution by C11 and C16 with the invariant of the insecure provider of C74 | proved |
| C80 | `ArithGmwModel` in the executor of `ExecModel`; the insecure provider in `ArithExecTheorems` | the generic soundness of the executor with the relation that the shares add up to the value of the gate; local gates by C08, layers by C07; values exist by induction over the rank of the circuit; false for other valid triples by an executed counterexample | partial |

## Modelled code

Paths are relative to `crates/`.  Line numbers are at each definition.

| source | model |
|---|---|
| aligned-vec/src/lib.rs | AlignedModel |
| bitpolymul | lib.rs, with the C functions as parameters (FftModel); the product of polynomials as a parameter-free specification inside SilentModel (`poly_mul`), linked by C76_reduce |
| seec-bitmatrix/src (lib, simple, portable_transpose, sse2_transpose) | BitMatModel (the SSE2 intrinsics by their effect on bytes) |
| seec-channel/src/multi.rs | ChannelModel (channels as FIFO queues) |
| seec-channel/src/lib.rs sub_channel, sub_channel_with, sync; multi.rs multi_sub_channel; seec-channel-macros | SubChanModel |
| seec/src/private_test_utils.rs 68-90 (`create_and_tree`) | AndTreeModel |
| seec/src/private_test_utils.rs 116-135, 186-194, 212-358 (sharing of test inputs, `execute_circuit`, `execute_bristol`; boolean GMW only, without additive and mixed sharing and without the choice of the channel) | TestUtilModel |
| seec-channel/src/util.rs (`Statistics`, counters) | StatModel |
| seec-channel/src/util.rs 20-43, 154-355 (tracking readers and writers) | TrackModel |
| seec-channel/src/util.rs 111-117, 526-573, 608-620 (`RunResult`) | RunResultModel |
| seec-channel/src/lib.rs (bounded channels) | AsyncModel |
| seec/src/circuit/base_circuit.rs | CircuitModel, InlineModel |
| seec/src/circuit/builder.rs, seec/src/secret.rs | BuilderModel (boolean circuits), ConnModel (connecting functions) |
| seec/src/circuit/circuit_connections.rs | ConnModel |
| seec/src/circuit/dyn_layers.rs, circuit/mod.rs | MultiModel |
| seec/src/circuit/static_layers.rs | StaticModel |
| seec/src/executor.rs | ExecModel (lock step), AsyncModel (bounded channels, any schedule) |
| seec/src/gate/base.rs, evaluate.rs | GateModel |
| seec/src/mul_triple/boolean/mod.rs, arithmetic/mod.rs | BoolGmwModel, ArithGmwModel |
| seec/src/mul_triple/{storage, boolean/trusted_provider, boolean/trusted_seed_provider}.rs | TripleModel |
| seec/src/mul_triple/{boolean, arithmetic}/ot_ext.rs | OtTripleModel |
| seec/src/mul_triple/boolean/silent_ot.rs | SilentModel |
| seec/src/parse/mod.rs, parse/bristol.rs | ParseModel |
| seec/src/protocols/mod.rs | ProtocolModel |
| seec/src/protocols/boolean_gmw.rs | BoolGmwModel |
| seec/src/protocols/arithmetic_gmw.rs | ArithGmwModel |
| seec/src/protocols/mixed_gmw.rs | MixedModel (the adder circuit in AdderData) |
| seec/src/protocols/aby2.rs | Aby2Model |
| seec/src/protocols/tensor_aby2.rs | TensorModel |
| seec/src/executor.rs (one party alone) | PartyModel |
| seec-macros/src/sub_circuit.rs, seec/src/circuit/builder.rs (install, into_circuit, caches) | SubCircModel |
| seec/examples/privmail.rs (the circuit) | PrivMailModel |
| seec/examples/aes_cbc.rs (circuit without `--use-sc`, input preparation) | CbcModel |
| seec/examples/aes_cbc.rs (circuit with `--use-sc`), builder.rs 126-130, 219-243, 340-373, 490-503, secret.rs 362-370 | CbcScModel |
| seec/examples/bristol.rs 109-141, circuit/mod.rs 81-84, 101-113, 136-152, dyn_layers.rs 333-341 | BristolToolModel |
| seec/src/bench.rs 90-312, mul_triple/boolean/insecure_provider.rs | BenchModel |
| zappot/src/util/aes_rng.rs, aes_hash.rs, block.rs (conversions); rand_core BlockRng | RngModel |
| seec/src/parse/fuse/mod.rs (CallMode::InlineCircuits) | FuseModel |
| seec-channel/src/multi.rs connect, listen_for_remotes, connect_to_remotes; seec-channel/src/tcp.rs connect_with_timeout | ConnectModel |
| seec/src/utils.rs, common.rs | BitVecModel |
| zappot/src/base_ot/mod.rs, ot_ext/mod.rs | OtModel |
| zappot/src/silent_ot/pprf.rs | PprfModel, ZapUtilModel |
| zappot/src/silent_ot/mod.rs, quasi_cyclic_encode.rs, configurations of the libOTe codes | SilentModel, ZapUtilModel |
| zappot/src/util/mod.rs, util/block.rs (used parts) | ZapUtilModel |

## Not modelled

* TCP and TLS sockets, serde encodings, the handshake of remoc (`seec-channel/src/tcp.rs` except the retry loop,
  `tls.rs`, `lib.rs` except the bounded queues, sub-channels and `sync`): messages are values in FIFO queues.
* `seec/src/parse/fuse/module_generated.rs` (decoding of FUSE files) and `CallMode::CallCircuits` of the converter, the
  code generation of the `sub_circuit` macro (the generated code is SubCircModel, ConnModel and BuilderModel), of `seec/src/bench.rs` the connecting, TLS, statistics and mixed protocols, test utilities, command line examples (except the circuits of privmail.rs, aes_cbc.rs and bristol.rs), tracing.
* Cryptographic hardness: hashes, AES, generators and groups are arbitrary parameters, so
  the theorems are about correctness and about which values mask which messages.
* The encoders of libOTe and the C code of bitpolymul: arbitrary matrices, and the
  polynomial product.
* Timing, thread pools (`tokio_rayon.rs`): parallel work is an arbitrary order of its parts.
* Fixed-width overflow of gate ids and counters, except where a theorem says so.

## Assumptions of the theorems

`Print Assumptions` follows every property theorem in the build.  Its output is
`Closed under the global context` for all theorems of MANIFEST.json: no axiom is used,
neither of the standard library nor of this development.  (The list of library axioms
that a checker finds in the loaded standard library, `Coq.ssr.ssrunder`, comes from files
loaded by `Require`; no theorem depends on it.)
