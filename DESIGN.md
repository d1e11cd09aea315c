# Formal model of Sunscreen-tech/spf in Rocq (Coq 8.16.1)

## Approach

* Executable Gallina models of the *code that exists*, one theory file per subsystem, every
  definition citing `file:lines` in /repo. Rust panics are explicit values (`Panic`), `Result::Err` is `Err`, Rust
  integers are `Z` with the wrap or the overflow check written out per build profile (debug/release), `&mut` functions
  return the new value, thread interleavings are a nondeterministic step relation, random draws are arguments.
* `X.v` = model (no proofs), `SpecX.v` = vocabulary in which the properties are stated, `XProofs*.v` = lemmas,
  `Props_X.v` = property theorems, each followed by `Print Assumptions` and by an `Example` meeting its hypotheses.
* Where the faithful model violates the English property we prove `..._refuted` (a concrete finding in the code) next to
  a `..._partial` or restricted theorem saying exactly what does hold.
* The theorems were tested against wrong programs: `seeded/LOG.jsonl` lists each mutation of the model, the claim it
  breaks, the theorems that then failed to prove and what was tightened.

## Per property

| Id | Property | Modelled | How it is proved | Status |
|----|----------|----------|------------------|--------|
| C01 | Memory reads return the last write | `Memory.v`: page table, allocator, typed and byte access of parasol_cpu/src/memory | invariant over operation histories; a load after any history returns the last store | proved |
| C02 | Only mapped memory is accessible | same | an access succeeds iff every byte of its range is mapped | proved |
| C03 | Allocations never overlap | same, first-fit allocator | disjointness invariant; refuted for lengths above 0xFFFFF000 | partial |
| C04 | A range that is mapped is usable, whatever its alignment to pages | `check_range_is_mapped` | exact characterisation; refuted at the page end | partial |
| C05 | Words and bytes convert without loss | Word/Byte conversions | algebra on Z | proved |
| C06 | Pointer arithmetic is checked | Ptr32 checked arithmetic | algebra on Z | proved |
| C07 | Callee sees exactly the arguments passed | call-frame construction (`CallData`, argument layout) | induction over the argument list | partial |
| C08 | A stack push leaves an aligned stack pointer and preserves what was pushed before | stack push | case analysis on alignment; refuted from a misaligned pointer | partial |
| C09 | Instruction encoding round-trips | `Isa.v`: bit-field codec of all instructions | arithmetic on disjoint fields | proved |
| C10 | Distinct instructions have distinct encodings and unknown opcodes are rejected | same | injectivity from C09; opcode table | proved |
| C11 | Decoding never aborts the host | same | exact acceptance condition; refuted for stray bits | partial |
| C12 | Plaintext add/sub/mul/neg are arithmetic modulo 2^width | `Alu.v`: plaintext ALU of parasol_cpu/src/proc/ops with build profile | Z.modulo lemmas; refuted at 128 | partial |
| C13 | Plaintext logic ops are bitwise | same | Z.testbit extensionality | partial |
| C14 | Plaintext comparisons are the integer comparisons | same | signed reinterpretation lemmas | partial |
| C15 | Plaintext shifts and rotates compute the documented value within the width | same | bit lemmas; exact value beyond the width | partial |
| C16 | Casts truncate, zero-extend and sign-extend | same, plaintext and encrypted casts | bit lemmas, list lemmas | partial |
| C17 | Operand width mismatches are errors, not results | same | case analysis of every instruction | proved |
| C18 | Encrypted addition equals plaintext addition | `Circuits.v`: circuit builders of mux_circuits | induction on width | proved |
| C19 | Encrypted subtraction equals plaintext subtraction | same | induction on width | proved |
| C20 | Encrypted comparisons equal integer comparisons | same | induction on width | proved |
| C21 | Encrypted shifts by an encrypted amount equal the shift | barrel shifters | induction on the number of stages | proved |
| C22 | Encrypted negation is two's complement negation | negation circuit | induction on width | proved |
| C23 | The array multiplier computes the full product | array multiplier | induction on rows | proved |
| C24 | Wide encrypted multiplication computes the full product | recursive multiplier | well-founded induction on width; exact set of aborting widths | partial |
| C25 | Signed encrypted multiplication is two's complement | signed multiplier | reduction to C24 | partial |
| C26 | A BDD and the mux circuit built from it compute the same functions | `MuxGraph.v`: diagram to mux circuit | induction on diagram order | proved |
| C27 | Circuit optimisation preserves every output | `optimize` passes (dedup, constant folding, pruning) | simulation of each rewrite; panicking input exhibited | partial |
| C28 | Inserting a mux circuit into an FHE circuit preserves its function | `FheGraph.v`: insert_mux_circuit | induction over the inserted nodes in topological order | proved |
| C29 | Pruning keeps exactly what the kept nodes depend on | `prune` with arbitrary hash order | closure of the kept set | proved |
| C30 | Ciphertext conversion preserves the bit and reaches the requested type | `convert_ciphertext` between the five kinds | case analysis of 25 pairs on arbitrary graphs | proved |
| C31 | Value handles survive later operations | `Fluent.v`: builder calls on one shared graph | monotonicity of node values; refuted for mul | partial |
| C32 | Every operation of a submitted circuit runs exactly once, after its inputs | `CircuitProc.v`: dispatcher, pool threads, completion as a transition system | inductive invariants over all schedules | proved |
| C33 | Circuit results do not depend on the schedule | same | every complete run yields the denotational result | proved |
| C34 | The completion callback fires exactly once, after everything finished | same | invariant on pending count | proved |
| C35 | Flow control bounds in-flight work and never deadlocks | same | measure + enabledness | proved |
| C36 | Out-of-order execution is equivalent to program order | `Processor.v`: out-of-order core (rename, reorder buffer, memory dependencies, threads) | simulation against program order for all schedules; refuted in general | partial |
| C37 | A branch uses the up-to-date condition | same | refutation traces; simulation when no pending condition was read | partial |
| C38 | Program execution is bounded by the gas limit | gas accounting | invariant; refutation | partial |
| C39 | Every run terminates with a result or an error once the program stops dispatching | faults, retire, stalls | progress argument; hanging program exhibited | partial |
| C40 | The first fault wins and faults stop effects | fault publication | invariant | proved |
| C41 | Exclusive borrows exclude every other borrow | `Sync.v`: AtomicRefCell as an atomic state machine | invariant over interleavings; refutation trace | partial |
| C42 | The spin lock gives mutual exclusion | spin lock | invariant over interleavings | proved |
| C43 | Encrypted integers decrypt to what was encrypted | `FluentInt.v`: encrypt/decrypt of integers bit by bit | bit lemmas | partial |
| C44 | Packing and unpacking are inverse | `Fluent.v` pack/unpack | graph evaluation, induction on bits | proved |
| C45 | Resizing keeps the value when it fits | resize | graph evaluation | partial |
| C46 | Comparing integers of different widths compares their values | mixed-width comparison | graph evaluation + C20 | partial |
| C47 | A deserialised object is valid for its type | `FluentInt.v` reader of serialised objects | totality + size invariants; refutation | partial |
| C48 | Torus encoding tolerates noise below half a step | `Tfhe.v`: torus encode/decode | modular arithmetic with explicit error | partial |
| C49 | Radix decomposition is exact up to rounding with small balanced digits | scalar and polynomial radix iterators | induction on digits | partial |
| C50 | LWE decryption inverts encryption | LWE encryption/decryption | phase algebra | proved |
| C51 | LWE/GLWE operations are homomorphic | LWE/GLWE linear operations | phase algebra in Z_q[X]/(X^N+1) (`PolyRing.v`) | partial |
| C52 | Key switching changes the key, not the message | LWE keyswitch and its key generation | phase algebra + C49, worst-case noise | partial |
| C53 | Sample extraction extracts the requested coefficient | sample extraction | coefficient algebra of the negacyclic product | proved |
| C54 | GLWE decryption inverts encryption | `TfheGlwe.v`: GLWE encryption | phase algebra; refuted for reused buffers | partial |
| C55 | Polynomial multiplication is negacyclic convolution and monomial rotation agrees with it | schoolbook multiplication and rotation | ring `PolyRing.v` (proved commutative ring) | proved |
| C56 | One-time-pad recryption recovers the message | one-time-pad recryption | bit algebra | proved |
| C57 | Barrett reduction is reduction modulo q | `Math.v`: Barrett reduction on limbs | integer bounds on the quotient estimate | proved |
| C58 | Combination enumeration is complete and in order | `Combos.v` combination iterator | lexicographic successor induction | proved |
| C59 | Triangular pairs enumerate every i <= j once, in order | triangular iterator | induction | proved |
| C60 | Rounded division rounds to nearest | div_rounded | exact formula + refutation | partial |
| C61 | Load immediate loads the number written in the program | loadi | case analysis on width | partial |
| C62 | Computing on encrypted operands agrees with computing on plaintext operands | `Alu.v` encrypted instruction functions | C18–C25 plus per-instruction composition | partial |
| C63 | A register stored to memory is the register loaded back | store then load of registers | memory lemmas + byte/bit packing | partial |
| C64 | Arguments and results survive conversion to bytes and back | argument/result marshalling | induction on arrays | partial |
| C65 | The program placed in memory is the program fetched | program placement and fetch | C01 + C09 | proved |
| C66 | ELF segments are loaded exactly | ELF loading | C01 induction over segments | proved |
| C67 | Packed allocations are disjoint | packed Allocation | invariant; refuted in release | partial |
| C68 | A malformed FHE circuit is an error, not an abort | validation of tasks | case analysis: every ill-typed node is an error | proved |
| C69 | The gas reported for a program is reproducible | gas on any schedule | invariant; refutation with two schedules | partial |
| C70 | Inserting an element into a reduced combination is an order-preserving bijection | reduced combination insertion | bijection proof | proved |
| C71 | Polynomial arithmetic is ring arithmetic | polynomials over Zq | ring proofs | proved |
| C72 | Polynomial equality is equality of polynomials | polynomial equality | refutation + one direction | partial |
| C73 | Conversion of integers into Zq is reduction modulo q | integer conversion into Zq | exact characterisation | partial |
| C74 | MulXN and Not act on coefficients as documented | MulXN and Not on ideal ciphertexts | coefficient algebra | proved |
| C75 | Programs with plaintext control run as written | `Processor.v` with plaintext control | static condition implies the hypothesis of C36 | proved |
| C76 | Fluent addition, subtraction and bitwise and compute the operation | `Fluent.v` add/sub/and | graph evaluation + library hypothesis met by a concrete library | partial |
| C77 | Fluent multiplication computes the product and keeps declared outputs | fluent mul | graph evaluation across circuit rebuilding | partial |
| C78 | Fluent inputs, constants, conversions, selection and outputs denote what they say | all other fluent calls | graph evaluation | partial |
| C79 | External product multiplies the message | `TfheGlwe.v` external product | ring algebra + C49 | proved |
| C80 | CMUX selects | cmux, GLEV cmux | C79 + bounded FFT error | proved |
| C81 | Lookup tables place every function value | `TfheBoot.v` lookup tables | index arithmetic | proved |
| C82 | Modulus switching rounds to the nearest grid point | modulus switch | rounding arithmetic | proved |
| C83 | Programmable bootstrapping evaluates the table and resets noise | programmable bootstrap | induction on blind rotation + C81, C82 | proved |
| C84 | GLWE key switching preserves the message | GLWE keyswitch | ring algebra + C49 | partial |
| C85 | Private functional keyswitch | `TfhePfks.v` private functional keyswitch | additive Lipschitz maps, ring algebra | partial |
| C86 | Public-key RLWE encryption decrypts under the secret key | public-key encryption | ring algebra | proved |
| C87 | The homomorphic trace isolates the constant coefficient | `TfheTrace.v` automorphisms and trace | induction on log N; group of Galois automorphisms | proved |
| C88 | Scheme switching turns a GLEV into a GGSW encryption | `TfheSwitch.v` scheme switch | ring algebra | partial |
| C89 | Circuit bootstrapping turns an encrypted bit into a selector | `TfheCbs.v` circuit bootstrap | C83 + C87 + C88 | partial |
| C90 | Polynomial addition and subtraction agree on every machine and build | vectorised add/sub per machine | case analysis of CPU features and profile | partial |
| C91 | GLEV and GGSW encryption and decryption | GLEV, GGSW encryption | ring algebra | proved |
| C92 | Bivariate bootstrapping evaluates two-argument functions | bivariate bootstrap | C83 | proved |
| C93 | Blind rotation multiplies by the encrypted monomial | blind rotation | induction on key length | proved |
| C94 | polynomial_pow_k computes P(X^k) | polynomial_pow_k | index arithmetic | partial |
| C95 | Power-of-two modulus switch divides the phase | power-of-two modulus switch | rounding arithmetic | proved |
| C96 | Upper-triangular key storage | upper-triangular key storage | index bijection | proved |
| C97 | Circuit bootstrapping through private functional keyswitching | circuit bootstrap via pfks | C83 + C85 | partial |
| C98 | Public functional keyswitch | public functional keyswitch | additive maps; refutation | partial |
| C99 | Scratch buffers behave as private arrays | `Scratch.v`: heap blocks, pool, buffers with addresses | simulation of private arrays over all histories | partial |
| C100 | Strided iteration visits every element exactly once | `Dst.v`: strided iterators and their parallel producers | invariant on (front, back); split trees by induction | partial |
| C101 | Homomorphic circuits compute on ciphertexts what they compute on plaintexts | `Eval.v`: keys, constants, every operation of exec_op on TFHE ciphertexts | per-operation refinement of `FheGraph.v` with explicit noise, then induction over circuits; composes C28, C52, C53, C80, C88, C89 | partial |
| C102 | Encryption of bits and polynomials at the runtime's API decrypts to the message | `Eval.v`: runtime encryption API | composes C50, C54, C86, C91 | partial |
| C103 | Polynomial multiplication through the FFT is the negacyclic product | `Fft.v`: twisted FFT over the reals with a rounding function, tables, ifft, final reduction, multiply-add kernels | evaluation at the odd 4n-th roots of unity is a ring morphism with an inverse (orthogonality of roots of unity); reduction by case analysis | partial |
| C104 | Rounding in the FFT changes a product by at most a stated bound | `Fft.v` with `ef_fl` any correct f64 rounding, `SpecFft.v` error recurrence | forward error propagated through twist, transform, multiply-add, inverse, untwist; Flocq gives the double-precision instance | proved |
| C105 | Every instruction does what the assembly language documents | `Processor.v`: exec_instr, next_pc, compute_gas, operand columns; `Isa.v`, `Alu.v`, `Memory.v` | independent table of meanings (`SpecInstr.v`) in terms of numbers; dispatch by case analysis on the opcode, values by C12-C17, C61-C63 | proved |
| C106 | CMUX, blind rotation and bootstrapping through the floating-point FFT equal the integer algorithms with a bounded error | FftGlwe.v: the Fourier-domain entities and fft_ops.rs on top of the polynomial transforms of Fft.v; rotation and bootstrapping loops with keys in Fourier form | product_fft (FftGlweProofs2.v): the accumulated products of one external product are one instance of the error theorem of C104, so the FFT product is the integer product plus a bounded error; induction over rows, components and loop iterations; the bound is evaluated over the rationals (FftBound.v) | proved |
| C107 | Bootstrapping through the floating-point FFT computes the function, end to end | The same plus key generation, tables, encryption and decryption (TfheBoot.v, Tfhe.v) | C106 composed with the integer end-to-end theorems (C83, C92): generated keys and tables are machine words, the existential errors of C106 meet the hypotheses of the integer theorem | proved |
| C108 | Key switching, trace, scheme switch and circuit bootstrap through the FFT compute the integer operation with bounded error | GLWE key switching, trace, scheme switch, circuit bootstrap on Fourier-form keys (FftCbs.v) over Fft.v and the integer models TfheTrace.v, TfheSwitch.v, TfheCbs.v | A Fourier-form ciphertext represents an integer one up to an error e at each frequency with values up to s; each multiply-add transforms (e, s); the inverse transform rounds to the integer result plus at most D; induction over rows, levels and the loops | proved |
| C109 | Circuit bootstrapping through the FFT, end to end | The same plus key generation, encryption, decryption | C108 composed with circuit_bootstrap_correct (C89) and key generation (C85, C87, C88); products of binary key polynomials are exact by C104 | proved |
| C110 | FHE circuits as the code runs them, with GGSW ciphertexts and keys in Fourier form | `EvalFft.v`: the compute key in Fourier form, every operation of exec_op on ciphertexts whose GGSW form is Fourier, key generation, processor setup, GGSW encryption and decryption | `EvalFftProofs.v`–`4`: each Fourier operation refines the integer one of C101 with the accumulated FFT error (C106, C108, C109), then induction over circuits; a concrete double-precision circuit is given | proved |
| C111 | SIMD kernels compute the same multiply-adds on every machine | `Avx512.v`: zmm registers, loads, stores, shuffles, fused and integer lane instructions, the two kernels' instruction lists and loops, the dispatch | `Avx512Proofs.v`: symbolic execution of one iteration, induction over iterations; exactly the machines and builds of `smad_exact` are exact; the others are `_refuted` | partial |
| C112 | Checked deserialisation accepts exactly the well-formed objects | `Serde.v`: the array layout of every entity, the size formulas, the bounded bincode reader on the fields of each type, check_is_valid | `SerdeProofs.v`: layouts are bijections between well-formed objects and arrays of the right length; reading inverts writing by induction over elements and fields; `codec` per type in `Props_Serde.v` | proved |
| C113 | An accepted secret object can be used | The same, with `decrypt_pad` and `key_generate` (C101) | Composition with C112; counterexamples for arbitrary parameters | partial |
| C114 | Encryption under an LWE public key decrypts, and its returned randomness explains it | `PubKey.v`: key rows, selection loop, encryption, returned randomness | Induction over the rows: the phase of the result is message + selected phases + error; noise bound by C48-style `near` arithmetic | proved |
| C115 | One-time-pad recryption works end to end on ciphertexts | `PubKey.v`: `generate_pad`, `recrypt_pad` over the models of C101 and C112 | Composition of public encryption, checked transport, homomorphic addition, decryption and pad removal | proved |
| C116 | Samplers turn generator output into the intended torus elements | `TorusMisc.v`: the samplers as functions of the generator's output, conversions word/double with an explicit rounding function | Preimages counted by division; scaling by 2^w is exact on doubles; saturation and the bit selection are `_refuted` | partial |
| C117 | Torus elements, positions and distances | `TorusMisc.v`: `normalized_torus`, `normalized_torus_distance`, `switch_modulus_smaller` | Flocq's round-to-nearest-even: monotonicity, error bound, tie at 2^64-1024; `_refuted` for [0,1) | partial |
| C118 | Running statistics | `Stats.v`: `add_sample` with every operation rounded by `fl` | Exact arithmetic: induction over samples to textbook sums; doubles: the new mean lies between old mean and sample (invariant) | proved |
| C119 | The security estimates answer on their documented domain | `Stats.v`: half-spaces, polytopes, the two regions with their literals | Flocq rounding of the linear forms; the gaps of the domain are `_refuted` | partial |
| C120 | Running a mux circuit on plain bits | `MuxEval.v`: traverse (read-only), eval_node, test_mux_circuit | loop invariant of the traversal (visited set is a topological prefix), then induction along the order; order of outputs and holes are `_refuted` | partial |
| C121 | Optimised diagram circuits: always built, minimal, and equal to the diagrams | `MuxGraph.v`, `MuxEval.v` | levels: the inputs are visited from the last variable to the first, each visit merges the muxes of one level and never touches a node it also removes; after the inputs no duplicates remain, so the rest of the traversal changes nothing | proved |
| C122 | The high-level TFHE pipelines return what they document | `HighLevel.v`: the wrappers of high_level.rs with their allocations | composition of the operation theorems (C106, C109, key switching, sample extraction) on freshly allocated buffers | proved |
| C123 | Goldilocks field arithmetic is arithmetic modulo p | `Goldilocks.v`: every operation on the words, with carries and profiles | bounds and congruences per operation, invariant word <= p by induction on the computation; primality from the crate's own constant (order 2^32 modulo every prime divisor, Fermat) | proved |
| C124 | Roots of unity are primitive and the NTT tables define an invertible transform | `Goldilocks.v`: nth_root_of_unity, NaiveNtt::new | order of an element with w^(n/2) = -1; geometric sums over a field give orthogonality | proved |
| C125 | Graph transform lists apply exactly what was pushed | opt.rs transform lists over a StableGraph with a free list (Transforms.v: apply, materialize, push) | Induction over the list with the added nodes and inserted ids in step (TransformsProofs.v) | partial |
| C126 | forward_traverse_mut visits every node once in topological order while the graph is rewritten | opt.rs forward_traverse_mut with an arbitrary callback, a function of its history (Transforms.v: traverse_mut) | Invariant over the ready stack, the visited nodes and the initial graph, preserved by every allowed rewriting (TransformsProofs2.v) | partial |
| C127 | Any number of calls can be made on one memory object | set_up_function_call, try_push_arg_onto_stack and every other memory operation (Memory.v) as sessions (SpecStack.v) | Induction over the session: sp = sp0 - sum of the frames; a mapped-room invariant gives the exact number of calls (StackProofs.v) | partial |
| C128 | The stack has the configured size and overflowing it is reported | Memory::new, set_up_function_call, try_allocate_at (Memory.v) | Case analysis on the frame size against the mapped pages; exact outcome for every new memory, refutation of the rounding claim and of the guard | partial |
| C129 | Public functional key switching through the FFT applies the map | public_functional_keyswitch with key rows transformed one by one and the accumulator in Fourier form (FftPfks.v) | The loop is one row product over the sequence of scratch polynomials; C104 error bound; then C98's integer theorem (FftPfksProofs.v) | proved |
| C130 | Circuit bootstrapping via private functional key switching works through the FFT | circuit_bootstrap_via_pfks with the bootstrap key in Fourier form (FftPfks.v) | Refinement to the integer model with bounded errors, then C97's theorem and C106's CMUX | proved |
| C131 | Compiled mux circuits compute their function on ciphertexts, with noise bounded by their depth | from_bdds/optimize and insert_mux_circuit run on ciphertexts with the FFT (MuxGraph.v, FheGraph.v, EvalFft.v); diagrams are any ordered diagrams with the builder's values (SpecPipe.v) | Muxes of a compiled circuit are ranked by the variable of their select input, so chains are at most as long as the number of variables; induction over the ranks bounds the noise; C110's refinement then gives decryption (PipeProofs.v, PipeProofs2.v) | proved |
| C132 | Encrypted programs of any length compute what their instructions document | Each instruction as builder, compilation, insertion, execution and new ciphertexts in a store (Pipe.v); values of registers as numbers (SpecPipe2.v) | Invariant: every ciphertext in the store has noise at most max(E0, 2W·noise of one CMUX); each step keeps it by C131 and has the documented value by the builders' theorems; induction over the program (PipeProofs3.v, PipeProofs4.v) | proved |
| C133 | Encrypted programs with shifts, XOR, NOT, selection, moves and casts: a static noise analysis that is sound | The graphs of XOR, NOT and CMUX bit by bit, the handle lists of plaintext shifts and casts, shifts compiled from diagrams (Pipe2.v); width, value and noise bound of each register and the static check (SpecPipe3.v) | Per-node noise and value of each gadget, appended to growing graphs (PipeProofs5.v); each instruction keeps, and totality of, the invariant that all ciphertexts of the store encrypt bits within their noise; induction over the program (PipeProofs6.v) | proved |
| C134 | Encrypted programs with multiplication: the static noise analysis stays sound | The multiplication graph: both operands in GGSW form, the recursive product from any library of mux circuits, outputs for the low word, pruning (Pipe3.v); the analysis extended with products (SpecPipe4.v) | Noise is preserved by pruning (invariant under permutation of an operation's inputs), by conversions and circuit insertion, hence by the recursion (PipeProofs7.v); values from gappend_uint_ok and prune_values; then as C133 (PipeProofs8.v); the decision-diagram library meets the hypotheses | proved |
| C135 | Programs mixing plaintext and encrypted registers | Pipe4.v: registers that are plaintexts or handles of ciphertexts, the choice of the plaintext or the encrypted branch of each instruction, the trivial encryption of plaintext operands, the swapped operands of multiplication by a plaintext, selection by a plaintext | PipeProofs9.v: the plaintext branch from the instruction lemmas (C01-C16), trivial encryptions are put into the store as noiseless ones, then one step of C134; induction over the program; the numbers do not depend on what is encrypted by induction over the analysis | proved |
| C136 | Encrypted data never reaches a plaintext register | Pipe4.v (mstep, plain_step) | induction over the two runs at once: which branch an instruction takes and what a plaintext branch computes are functions of the plaintext registers alone | proved |
| C137 | Encrypted programs with carries compute multi-word arithmetic | Pipe5.v (zstep, zrun: encrypted add with carry and subtract with borrow, through the code's circuits and runtime) | per instruction: the compiled circuit keeps its promises (C133/C134 machinery), its value is the carry specification of Alu; induction over the program; chains of limbs by induction on the chain, uniqueness of the quotient | proved |

## Trusted base

* Coq 8.16.1's kernel (and its `vm_compute`), and the reading of the Rust text into Gallina, definition by definition.
* `Print Assumptions` of every theorem in every `Props_*.v` except those about the FFT answers "Closed under the global
  context": no axiom, neither our own nor the standard library's. The FFT theorems (`Props_Fft*.v`, `Props_EvalFft.v` and
  `complex_mad_x86_correct`: C103, C104, C106–C111; likewise `Props_Torus.v`, `Props_Stats.v`: C116–C119) are about real numbers and rest on the axioms of the standard library's `Reals`:
  `ClassicalDedekindReals.sig_not_dec`, `ClassicalDedekindReals.sig_forall_dec` and
  `FunctionalExtensionality.functional_extensionality_dep`; `C104_double_precision` and the theorems of C116–C119 about double rounding use in addition
  `Classical_Prop.classic` (through Flocq). No other axiom is used. (The axioms that coqchk lists
  for loaded libraries such as `Coq.ssr.ssrunder` are used by no theorem.) No functors, module types, admitted
  proofs, disabled checks or plugins.
* Section `Context` variables are always discharged: each theorem's statement shows what it assumes.

### What is modelled

| Code | Model |
|------|-------|
| parasol_cpu/src/memory, proc/args.rs, load/store, ELF segment loading | `Memory.v` |
| parasol_cpu/src/proc/assembly.rs and the codec macros of parasol_cpu_macros | `Isa.v` |
| parasol_cpu/src/proc/ops (plaintext and encrypted instruction functions) | `Alu.v` |
| parasol_cpu/src/proc/fhe_processor.rs, tomasulo (out-of-order core, gas, faults) | `Processor.v` |
| mux_circuits builders (add, sub, mul, comparisons, bitshift, neg), parasol_runtime/src/circuits/mul.rs | `Circuits.v` |
| mux_circuits/src/{lib,opt,graph_ops}.rs | `Graph.v`, `MuxGraph.v` |
| parasol_runtime/src/fhe_circuit.rs, ciphertext conversion, pruning, validation | `FheGraph.v` |
| parasol_runtime/src/circuit_processor (scheduler) | `CircuitProc.v` |
| parasol_runtime/src/fluent | `Fluent.v`, `FluentInt.v`, `FluentLib.v` |
| parasol_runtime/src/crypto (keys, encryption, evaluation) and exec_op on ciphertexts | `Eval.v` |
| parasol_concurrency/src/lib.rs | `Sync.v` |
| sunscreen_math (Barrett, Zq, polynomials, combinations) | `Math.v`, `Combos.v` |
| sunscreen_tfhe: torus, radix, LWE, GLWE, GLEV, GGSW, key switches, bootstrapping, trace, scheme switch, circuit bootstrap, private/public functional key switch | `Tfhe.v`, `TfheGlwe.v`, `TfheBoot.v`, `TfheTrace.v`, `TfheSwitch.v`, `TfheCbs.v`, `TfhePfks.v` |
| sunscreen_tfhe/src/math/fft/negacyclic, polynomial fft/ifft/multiply_add, scalar f64 kernels | `Fft.v` |
| sunscreen_tfhe/src/ops/fft_ops.rs, keys and ciphertexts in Fourier form, bootstrapping / trace / scheme switch / circuit bootstrap on them | `FftGlwe.v`, `FftCbs.v`, `FftPfks.v`, `EvalFft.v` |
| parasol_cpu/src/proc/ops/{add,sub,and,or,comparisons}.rs as one encrypted instruction each: compile, insert, run, store | `Pipe.v` |
| parasol_cpu/src/proc/ops/{bitshift,xor,not,cmux,mov,casting}.rs as one encrypted instruction each (encrypted operands) | `Pipe2.v` |
| parasol_cpu/src/proc/ops/mul.rs as one encrypted instruction (encrypted operands) | `Pipe3.v` |
| parasol_runtime/src/safe_bincode.rs, GetSize impls of crypto/{keys,encryption,recryption}.rs, entity sizes and layouts of sunscreen_tfhe/src/entities | `Serde.v` |
| sunscreen_tfhe/src/entities/lwe_public_key.rs, parasol_runtime/src/crypto/recryption.rs | `PubKey.v` |
| sunscreen_tfhe/src/rand.rs, float conversions of sunscreen_tfhe/src/math/torus.rs | `TorusMisc.v` |
| mux_circuits/src/opt.rs (transform lists, forward_traverse_mut; not get_binary_operands, which no shipped operation reaches) | `Transforms.v` |
| mux_circuits/src/graph_ops.rs (forward_traverse), mux_circuits/src/lib.rs (test_mux_circuit) | `MuxEval.v` |
| sunscreen_math/src/{stats,geometry}.rs, domain checks of sunscreen_math/src/security.rs (the fitted polynomials are not modelled) | `Stats.v` |
| sunscreen_tfhe/src/math/goldilocks_field.rs, Pow (math/mod.rs) at u64 exponents, NaiveNtt::new (math/fft/cyclic/mod.rs; RealFft is a wrapper of an external crate and not modelled) | `Goldilocks.v` |
| sunscreen_tfhe/src/high_level.rs (encryption, evaluation, FFT and key generation wrappers; not the key-sampling one-liners) | `HighLevel.v` |
| sunscreen_tfhe/src/math/simd/x86_64/avx512.rs (inline assembly) and its dispatch | `Avx512.v` |
| sunscreen_tfhe/src/{scratch.rs,dst.rs} | `Scratch.v`, `Dst.v` |

### What is not modelled

* Cryptographic security, probability of large noise: theorems use worst-case bounds on every error; the shipped
  parameter set DEFAULT_128 is correct only with overwhelming probability and does not meet the worst-case margin of C101.
* The crates rustfft, libm (sin_cos) and num-complex's powf: parameters of the FFT model (`ext`) with their accuracy as a
  hypothesis; f64 values are real numbers with a rounding function (no infinities or NaN). In the TFHE models each FFT product
  appears as the exact ring product plus an explicit error ciphertext with a bound; C106 and C108 prove that the Fourier-domain
  code (`FftGlwe.v`, `FftCbs.v`, `FftPfks.v`) is such a computation.
* External crates: petgraph (its stable graph is an array of optional nodes and an edge list), rayon (any schedule),
  biodivine-lib-bdd (any well-formed diagram), crypto_bigint (big integers are Z), bincode (a byte reader with its size
  limit), elf parsing (segments are inputs). The mux circuits shipped as prebuilt files are assumed to compute the same
  function as the generated ones.
* Weak memory: concurrent models are sequentially consistent. Rust's type-level guarantees (aliasing, Send/Sync) are assumed,
  except where unsafe code is modelled (`Sync.v`, `Scratch.v`, `Dst.v`).
* zkp.rs (not compiled in), the C header, the command-line tools, documentation generators, proc-macro expansion beyond what
  is cited.

## Findings (each is a `_refuted` theorem unless marked as a note)

Processor and memory
* try_allocate with a huge length aborts (debug) or maps nothing and returns an address (release); a typed write ending at the
  end of the mapped area is refused; a page-multiple typed allocation fails.
* A push from a misaligned stack pointer stays misaligned and clobbers the last pushed byte; arguments with alignment 32
  overwrite the caller's data; array elements whose size is not a multiple of their alignment do not round-trip; a packed
  Allocation wraps in release builds; load/store at widths that are not multiples of 8 lose bits.
* The decoder aborts on stray high bits of a known opcode; loadi above width 32 aborts (debug) or rejects (release).
* ALU at width 128: mask overflow (add, sub, neg, logic), signed compare, sign extension, truncation; shl/shra leave bits above
  the width; shift amounts from 128 on abort debug builds; an encrypted shift by a plaintext amount above the width aborts;
  encrypted neg is `todo!`; encrypted mul aborts at widths 33, 65–67.
* Out-of-order core: stale branch condition, stale pointer footprint, branch on a pending ciphertext treated as zero, gas limit
  per instruction only and gas total schedule-dependent, unresolvable addresses hang the run, `store r, r` aborts.
* AtomicRefCell: a refused borrow breaks exclusion. (Note: its Send/Sync bounds are weaker than sound ones.)

Circuits and runtime
* The recursive multiplier aborts for equal widths n with 16·2^d < n < 17·2^d and for mixed widths straddling 16.
* Common-subexpression elimination panics on a well-formed circuit; insert_mux_circuit aborts on an output wired to a variable.
* forward_traverse_mut: a node inserted under the number of one deleted earlier is never visited although both mutations are documented
  as allowed; a deferred index means another node once its own was removed and the number reused.
* Scheduler: flow-control length 0 hangs; circuits reading and writing one ciphertext are schedule-dependent; cyclic circuits
  report success (documented).
* Fluent: mul makes earlier handles and cached constants stale; constants of level-1 LWE and GLEV type and unsigned resize of
  them abort; signed resize to 0 bits; signed mixed-width comparison zero-extends; shorter right operands abort; `and` of 65536
  bits aborts; unsigned GLEV mul wider than 16 bits never has a value.
* Integers: Int<128> encryption aborts in debug builds; UInt<256> cannot encrypt any nonzero value; packed integers of degree
  bits or more cannot be decrypted; trivial packed encryption has no range check; deserialised integers may have fewer bits.
* `encrypt_rlev` contains a leftover `dbg!` that prints the plaintext (note) and aborts for degrees below 16.

TFHE and mathematics
* The inverse FFT returns 2^(w-1)-1 for a coefficient whose remainder is -2^(w-1) (saturating conversion after an unwanted
  correction); products of polynomials of degree below 16 abort on x86.
* A GGSW ciphertext out of a scheme switch stays in Fourier form and is never reduced modulo 2^w, so its values are larger than those
  of a transformed ciphertext and the worst-case rounding error of a CMUX with it is too: at DEFAULT_128 the bound D4 of C108 is
  about 2^63, no margin at all in the worst case.
* decode with 32..63 plaintext bits on u64; log·count = w accepted as valid but aborting; LWE key-switch key generation aborts in
  debug builds for key coefficients ≥ 2^log; 64-bit polynomial add/sub abort in debug builds with AVX2 and subtraction without
  AVX2 adds; GLWE encryption, scheme_switch_fft, circuit bootstrap and private functional keyswitch into a reused buffer mix in
  the old contents; polynomial_pow_k with even k; modulus switch by 0; circuit bootstrap with log·count ≥ w−1; the polynomial
  given to public functional keyswitch maps is stale scratch memory; fresh scratch buffers show stale data; debug build aborts on
  a mutable iterator over an empty list; ExactSizeIterator::len of shared iterators does not decrease.
* `polynomial_small_scalar_mad` (GLWE scalar multiply-add, private functional keyswitch, circuit bootstrap through it): debug builds without
  AVX-512 abort on the first wrap-around; with AVX-512 the kernel handles 16 words at a time with no length check, so degrees that are not
  a multiple of 16 are accessed out of bounds, and it uses AVX512DQ although only AVX512F is checked.
* Polynomial equality ignores the leading coefficient; Zq::from(i64) is wrong below −q; negative Barrett moduli are accepted;
  division by a non-monic polynomial does not panic as documented; div_rounded is wrong for odd divisors.
* `test_mux_circuit` returns the outputs in node order, not by output number, and aborts on graphs with removed nodes.
* `FromU64` keeps the least, not the documented most significant bits; `normal_torus` saturates 64-bit samples beyond ±1/2;
  `normalized_torus` returns 1.0 for the last 1024 elements of the 64-bit torus, documented [0,1).
* `lwe_std_to_security_level` refuses dimensions 368 to 385 (its bound reads 386), and `lwe_security_level_to_std` refuses level 78 from
  dimension 1436 on, both documented as valid.
* Goldilocks field: `-0` and `new(p)` are the word p, which equality and the zero test distinguish from 0; nth_root_of_unity returns 1
  for sizes above 2^32, where no primitive root exists, instead of panicking.
* (Notes) Scratch has no Drop, so pool blocks leak at thread exit; cmux overwrites its output although documented as `+=`.
* Nothing restores the stack pointer of a Memory after a call: a default memory serves 1024 of the smallest calls and then refuses;
  with mapped pages below the stack an oversized frame silently overwrites them; stack_size is not rounded up to a page as documented.
* The graph-transform index conventions break when removed node slots are reused (C125).
