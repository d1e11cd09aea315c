{"id": "C01", "title": "Memory reads return the last write", "statement": "Loading a byte from an address returns exactly the byte most recently stored at that address by a successful store, and a store changes no byte at any other address and maps or unmaps nothing.", "quantifier": "every history of successful and failed stores/loads, every address and every byte (plain or encrypted)", "why_tests_cant": "a test fixes a handful of addresses and histories; page/offset arithmetic must be right for all 2^32 addresses and any interleaving of writes", "anchors": ["parasol_cpu/src/memory/mod.rs: try_load, try_store, Memory"]}
{"id": "C02", "title": "Only mapped memory is accessible", "statement": "A load or store touching an address whose page was never mapped fails with AccessViolation and leaves memory unchanged; a load/store at a mapped address never fails; the null page is never handed out by allocation.", "quantifier": "every memory state reachable from an empty memory by allocations and stores, every address", "why_tests_cant": "universally quantified over addresses and allocation histories", "anchors": ["parasol_cpu/src/memory/mod.rs: try_load, try_store, try_allocate, check_range_is_mapped"]}
{"id": "C03", "title": "Allocations never overlap", "statement": "A successful try_allocate(len) returns a page-aligned non-null pointer to a range of at least len mapped, zeroed bytes that was entirely unmapped before; the contents of previously mapped memory do not change; hence any two ranges returned during one execution are disjoint.", "quantifier": "every sequence of allocation requests of every size, from every reachable memory", "why_tests_cant": "first-fit search correctness must hold for any pre-existing page layout", "anchors": ["parasol_cpu/src/memory/mod.rs: try_allocate"]}
{"id": "C04", "title": "A range that is mapped is usable, whatever its alignment to pages", "statement": "A typed write or typed allocation whose byte range lies within mapped pages succeeds.", "quantifier": "every pointer and length", "why_tests_cant": "boundary condition at every page multiple: tests allocate small values", "anchors": ["parasol_cpu/src/memory/mod.rs: check_range_is_mapped, try_allocate_type, try_write_type"]}
{"id": "C05", "title": "Words and bytes convert without loss", "statement": "Splitting a plaintext word into bytes and reassembling it gives the same word; reassembling 1, 2 or 4 bytes zero- or sign-extends; mixing encrypted and plaintext bytes is rejected; more than four bytes is rejected.", "quantifier": "all 32-bit values, all byte lists, both extension modes", "why_tests_cant": "exhaustive 2^32 domain plus mixed-kind combinations", "anchors": ["parasol_cpu/src/memory/mod.rs: Word, Byte, Word::try_from_bytes"]}
{"id": "C06", "title": "Pointer arithmetic is checked", "statement": "Adding an unsigned or signed offset to a pointer either gives the exact mathematical sum or reports an overflow; it never wraps.", "quantifier": "all 32-bit pointers and offsets", "why_tests_cant": "exhaustive domain", "anchors": ["parasol_cpu/src/memory/mod.rs: Ptr32::try_offset, try_signed_offset"]}
{"id": "C07", "title": "Callee sees exactly the arguments passed", "statement": "After set-up of a function call every argument occupies its own aligned, disjoint byte range inside the freshly pushed frame, in order, the bytes in that range are the argument's bytes, the return slot is disjoint from all arguments, and memory above the frame is unchanged.", "quantifier": "every argument list (any number, sizes and power-of-two alignments up to 16) and every stack pointer", "why_tests_cant": "layout depends on all sizes/alignments and on the stack pointer residue; tests use a few signatures", "anchors": ["parasol_cpu/src/memory/mod.rs: set_up_function_call, try_push_arg_onto_stack", "parasol_cpu/src/proc/args.rs: Args, alloc_size"]}
{"id": "C08", "title": "A stack push leaves an aligned stack pointer and preserves what was pushed before", "statement": "After pushing a value with alignment a the stack pointer is a multiple of a and all bytes at or above the old stack pointer are unchanged.", "quantifier": "every stack pointer, alignment and value", "why_tests_cant": "depends on the residue of the stack pointer; tests start from aligned stacks", "anchors": ["parasol_cpu/src/memory/mod.rs: try_push_arg_onto_stack"]}
{"id": "C09", "title": "Instruction encoding round-trips", "statement": "Decoding the 64-bit encoding of any instruction whose fields are in range gives back the same instruction.", "quantifier": "all 37 opcodes, all register numbers, widths, immediates and offsets", "why_tests_cant": "field packing must be right for the product of all field values", "anchors": ["parasol_cpu/src/proc/assembly.rs: define_op, IsaOp"]}
{"id": "C10", "title": "Distinct instructions have distinct encodings and unknown opcodes are rejected", "statement": "Two different well-formed instructions never encode to the same word; a word whose opcode byte is not in the table is reported as an invalid instruction.", "quantifier": "all pairs of instructions; all 2^64 words", "why_tests_cant": "quadratic in a huge domain", "anchors": ["parasol_cpu/src/proc/assembly.rs"]}
{"id": "C11", "title": "Decoding never aborts the host", "statement": "For every 64-bit word the decoder returns either an instruction or an invalid-instruction error.", "quantifier": "all 2^64 program words", "why_tests_cant": "malicious programs choose the word", "anchors": ["parasol_cpu/src/proc/assembly.rs: define_op decode assert_eq"]}
{"id": "C12", "title": "Plaintext add/sub/mul/neg are arithmetic modulo 2^width", "statement": "For operands of width w the plaintext result of add, sub, mul and neg (and the carry/borrow variants' outputs) equals the mathematical result modulo 2^w (carry/borrow = the overflow), recorded with width w.", "quantifier": "all widths 1..128 and all operand values that fit", "why_tests_cant": "128-bit domain; boundary widths", "anchors": ["parasol_cpu/src/proc/ops/add.rs", "parasol_cpu/src/proc/ops/sub.rs", "parasol_cpu/src/proc/ops/mul.rs", "parasol_cpu/src/proc/ops/neg.rs"]}
{"id": "C13", "title": "Plaintext logic ops are bitwise", "statement": "and, or, xor and not on w-bit plaintext operands give the bitwise result, and every result fits w bits.", "quantifier": "all widths and values", "why_tests_cant": "domain size", "anchors": ["parasol_cpu/src/proc/ops/and.rs", "parasol_cpu/src/proc/ops/or.rs", "parasol_cpu/src/proc/ops/xor.rs", "parasol_cpu/src/proc/ops/not.rs"]}
{"id": "C14", "title": "Plaintext comparisons are the integer comparisons", "statement": "Each of the nine comparison instructions on plaintext operands produces 1 exactly when the relation holds of the unsigned (or two's complement) values, as a 1-bit result.", "quantifier": "all widths and values", "why_tests_cant": "domain size, sign boundary at every width", "anchors": ["parasol_cpu/src/proc/ops/comparisons.rs"]}
{"id": "C15", "title": "Plaintext shifts and rotates compute the documented value within the width", "statement": "shl, shr, shra, rotl and rotr of a w-bit value by s give the w-bit logical/arithmetic/rotated value and every result fits w bits.", "quantifier": "all widths, values and shift amounts", "why_tests_cant": "boundary shift amounts at each width", "anchors": ["parasol_cpu/src/proc/ops/bitshift.rs"]}
{"id": "C16", "title": "Casts truncate, zero-extend and sign-extend", "statement": "trunc keeps the low bits, zext keeps the unsigned value, sext keeps the two's complement value, at the requested width.", "quantifier": "all widths and values", "why_tests_cant": "domain", "anchors": ["parasol_cpu/src/proc/ops/casting.rs"]}
{"id": "C17", "title": "Operand width mismatches are errors, not results", "statement": "A binary instruction on operands of different widths, or with a width of 0 or above 128, reports an error and writes no register.", "quantifier": "all operand widths and kinds", "why_tests_cant": "combination space", "anchors": ["parasol_cpu/src/proc/ops/mod.rs: check_register_width"]}
{"id": "C18", "title": "Encrypted addition equals plaintext addition", "statement": "Decrypting the sum circuit's outputs gives a + b + carry-in on n and m bit inputs, including the carry out.", "quantifier": "all widths n, m and all input bits", "why_tests_cant": "the circuit is generated per width; a test checks a few widths", "anchors": ["mux_circuits/src/add.rs: ripple_carry_adder", "parasol_runtime/src/circuits/add.rs"]}
{"id": "C19", "title": "Encrypted subtraction equals plaintext subtraction", "statement": "The subtractor's outputs are the bits of a - b - borrow-in modulo 2^n and the borrow out is set exactly when a < b + borrow-in.", "quantifier": "all widths and inputs", "why_tests_cant": "generated per width", "anchors": ["mux_circuits/src/sub.rs: full_subtractor"]}
{"id": "C20", "title": "Encrypted comparisons equal integer comparisons", "statement": "The comparison circuits output 1 exactly when the (un)signed relation holds; equality circuits exactly when the values are (un)equal.", "quantifier": "all widths >= 1, both flags, all inputs", "why_tests_cant": "generated per width", "anchors": ["mux_circuits/src/comparisons.rs"]}
{"id": "C21", "title": "Encrypted shifts by an encrypted amount equal the shift", "statement": "The barrel shifter outputs the value shifted/rotated (left/right, logical, arithmetic, rotation) by the encrypted amount.", "quantifier": "all widths, shift-operand widths and inputs", "why_tests_cant": "generated per pair of widths", "anchors": ["mux_circuits/src/bitshift.rs"]}
{"id": "C22", "title": "Encrypted negation is two's complement negation", "statement": "The negator's outputs are the bits of -a modulo 2^n.", "quantifier": "all widths and inputs", "why_tests_cant": "generated per width", "anchors": ["mux_circuits/src/neg.rs"]}
{"id": "C23", "title": "The array multiplier computes the full product", "statement": "The generated multiplier's n+m output bits are the bits of a*b.", "quantifier": "all widths n, m and inputs", "why_tests_cant": "generated per width; quadratic circuit", "anchors": ["mux_circuits/src/mul.rs: multiplier_bdd, mul_bdd_encode/decode"]}
{"id": "C24", "title": "Wide encrypted multiplication computes the full product", "statement": "Recursive multiplication of two equal-width operands yields the 2n bits of the product and never aborts.", "quantifier": "all operand widths and values", "why_tests_cant": "widths that are not powers of two take different recursion paths", "anchors": ["parasol_runtime/src/circuits/mul.rs: mul_impl", "mux_circuits/src/mul.rs: partition_integer, encode_gradeschool_reduction, gradeschool_reduce"]}
{"id": "C25", "title": "Signed encrypted multiplication is two's complement", "statement": "append_int_multiply yields the bits of the signed product.", "quantifier": "all widths and values", "why_tests_cant": "sign cases incl. the minimum value", "anchors": ["parasol_runtime/src/circuits/mul.rs: append_int_multiply"]}
{"id": "C26", "title": "A BDD and the mux circuit built from it compute the same functions", "statement": "For every assignment of the inputs each output of the mux circuit equals the value of the corresponding decision diagram.", "quantifier": "all lists of well-formed decision diagrams and all assignments", "why_tests_cant": "2^inputs assignments and unbounded graphs", "anchors": ["mux_circuits/src/lib.rs: From<&[Bdd]> for MuxCircuit"]}
{"id": "C27", "title": "Circuit optimisation preserves every output", "statement": "After common-subexpression elimination each output of the circuit has the same value on every input, the input order is unchanged, and the number of nodes does not grow.", "quantifier": "all mux circuits and inputs", "why_tests_cant": "graph rewriting over unbounded graphs", "anchors": ["mux_circuits/src/opt.rs"]}
{"id": "C28", "title": "Inserting a mux circuit into an FHE circuit preserves its function", "statement": "Each returned node evaluates to the mux circuit's output on the values of the connected nodes and no existing node changes value.", "quantifier": "all mux circuits, host graphs and assignments", "why_tests_cant": "unbounded graphs", "anchors": ["parasol_runtime/src/fhe_circuit.rs: insert_mux_circuit"]}
{"id": "C29", "title": "Pruning keeps exactly what the kept nodes depend on", "statement": "prune returns a graph in which every kept node has the same op, the same labelled predecessors up to renaming and so the same value, and which contains only ancestors of kept nodes.", "quantifier": "all graphs and node lists", "why_tests_cant": "unbounded graphs", "anchors": ["parasol_runtime/src/fhe_circuit.rs: prune"]}
{"id": "C30", "title": "Ciphertext conversion preserves the bit and reaches the requested type", "statement": "insert_ciphertext_conversion terminates, adds only well-typed operations and returns a node of the requested type encrypting the same bit.", "quantifier": "all 25 (source, destination) type pairs", "why_tests_cant": "needs the semantics of all ops on every path", "anchors": ["parasol_runtime/src/fhe_circuit.rs: insert_ciphertext_conversion"]}
{"id": "C31", "title": "Value handles survive later operations", "statement": "Nodes obtained from a circuit context keep denoting the same value after any further fluent operation on that context.", "quantifier": "all sequences of fluent operations", "why_tests_cant": "depends on operation order (mul rebuilds the graph)", "anchors": ["parasol_runtime/src/fluent/dynamic_generic_int_graph_nodes.rs: mul", "parasol_runtime/src/fluent/bit.rs: zero, one"]}
{"id": "C32", "title": "Every operation of a submitted circuit runs exactly once, after its inputs", "statement": "In every schedule each node of the graph is executed at most once, never before all its predecessors have finished, and when the run completes every node has been executed exactly once.", "quantifier": "all acyclic graphs, all numbers of threads and all interleavings", "why_tests_cant": "unbounded interleavings", "anchors": ["parasol_runtime/src/circuit_processor/mod.rs", "parasol_runtime/src/circuit_processor/task.rs"]}
{"id": "C33", "title": "Circuit results do not depend on the schedule", "statement": "Every terminating schedule produces for each output the value of sequential evaluation in topological order.", "quantifier": "all graphs, schedules", "why_tests_cant": "interleavings", "anchors": ["parasol_runtime/src/circuit_processor/mod.rs"]}
{"id": "C34", "title": "The completion callback fires exactly once, after everything finished", "statement": "The completion handler is invoked once, not before the last operation retired, with the first error if any operation failed.", "quantifier": "all graphs and schedules including failures", "why_tests_cant": "interleavings", "anchors": ["parasol_runtime/src/circuit_processor/completion_handler.rs"]}
{"id": "C35", "title": "Flow control bounds in-flight work and never deadlocks", "statement": "At most N dispatched-but-unfinished operations exist at any time, and some step is always possible until the graph is complete (N >= 1).", "quantifier": "all N, graphs and schedules", "why_tests_cant": "interleavings; deadlock is a liveness question", "anchors": ["parasol_runtime/src/circuit_processor/mod.rs: FlowControl"]}
{"id": "C36", "title": "Out-of-order execution is equivalent to program order", "statement": "For straight-line code without faults every schedule of the instruction window leaves registers and memory as sequential execution would.", "quantifier": "all programs, initial states and schedules", "why_tests_cant": "interleavings of in-flight instructions", "anchors": ["parasol_cpu/src/tomasulo/", "parasol_cpu/src/proc/fhe_processor.rs"]}
{"id": "C37", "title": "A branch uses the up-to-date condition", "statement": "A conditional branch tests the value its condition register has in program order, and a branch on an encrypted value is reported.", "quantifier": "all programs and schedules", "why_tests_cant": "race between dispatch and retirement", "anchors": ["parasol_cpu/src/proc/fhe_processor.rs: BranchNonZero, BranchZero"]}
{"id": "C38", "title": "Program execution is bounded by the gas limit", "statement": "The total gas charged to a run never exceeds the limit; exceeding it yields OutOfGas.", "quantifier": "all programs and limits", "why_tests_cant": "needs all programs, including non-terminating ones", "anchors": ["parasol_cpu/src/proc/fhe_processor.rs: compute_gas, run_program"]}
{"id": "C39", "title": "Every run terminates with a result or an error once the program stops dispatching", "statement": "When instruction set-up fails the run reports the error instead of waiting forever.", "quantifier": "all faulting programs", "why_tests_cant": "hang: a test that times out shows nothing", "anchors": ["parasol_cpu/src/proc/fhe_processor.rs: wait, dispatch"]}
{"id": "C40", "title": "The first fault wins and faults stop effects", "statement": "After the first fault is recorded, it is the one reported and no later-retired instruction changes registers or memory.", "quantifier": "all schedules", "why_tests_cant": "interleavings", "anchors": ["parasol_cpu/src/proc/fhe_processor.rs: set_fault, exec_instruction"]}
{"id": "C41", "title": "Exclusive borrows exclude every other borrow", "statement": "While a mutable borrow of a shared ciphertext is live no other borrow can be obtained, and no mutable borrow while shared borrows are live.", "quantifier": "all interleavings of borrow, borrow_mut and drop, including failed attempts", "why_tests_cant": "interleavings with panics", "anchors": ["parasol_concurrency/src/lib.rs: AtomicRefCell"]}
{"id": "C42", "title": "The spin lock gives mutual exclusion", "statement": "At most one thread holds the guard at a time; a try_lock fails exactly when it is held.", "quantifier": "all interleavings", "why_tests_cant": "interleavings", "anchors": ["parasol_concurrency/src/lib.rs: Spinlock"]}
{"id": "C43", "title": "Encrypted integers decrypt to what was encrypted", "statement": "For every value accepted for n bits, converting to bits, encrypting each bit and decrypting gives the value back; out-of-range values are refused.", "quantifier": "all n and all values (signed and unsigned)", "why_tests_cant": "domain; boundary widths 128 and above", "anchors": ["parasol_runtime/src/fluent/uint.rs", "parasol_runtime/src/fluent/int.rs", "parasol_runtime/src/fluent/dynamic_generic_int.rs"]}
{"id": "C44", "title": "Packing and unpacking are inverse", "statement": "pack puts bit i of an n-bit integer in coefficient i of one polynomial and zero elsewhere, never aborts for 1 <= n <= degree, and unpack returns the bits in order.", "quantifier": "all n, bit vectors and degrees", "why_tests_cant": "tree reduction shape for every n", "anchors": ["parasol_runtime/src/fluent/dynamic_generic_int_graph_nodes.rs: pack", "parasol_runtime/src/fluent/packed_dynamic_generic_int_graph_node.rs"]}
{"id": "C45", "title": "Resizing keeps the value when it fits", "statement": "Resizing an unsigned integer zero-extends/truncates; resizing a signed integer keeps its value when it fits the new width.", "quantifier": "all widths and values", "why_tests_cant": "boundary widths", "anchors": ["parasol_runtime/src/fluent/dynamic_generic_int_graph_nodes.rs: resize"]}
{"id": "C46", "title": "Comparing integers of different widths compares their values", "statement": "eq/neq/gt/ge/lt/le on operands of different widths equal the relation on their integer values.", "quantifier": "all widths, signs and values", "why_tests_cant": "mixed-width combinations", "anchors": ["parasol_runtime/src/fluent/dynamic_generic_int_graph_nodes.rs: cmp, eq, neq"]}
{"id": "C47", "title": "A deserialised object is valid for its type", "statement": "Whenever safe deserialisation of UInt<N>/Int<N>/packed integers succeeds, the object has exactly N bits and each ciphertext the right length, so that using it cannot abort.", "quantifier": "all byte strings", "why_tests_cant": "adversarial bytes", "anchors": ["parasol_runtime/src/safe_bincode.rs", "parasol_runtime/src/fluent/generic_int.rs: check_is_valid"]}
{"id": "C48", "title": "Torus encoding tolerates noise below half a step", "statement": "Decoding an encoded p-bit message plus any error smaller in magnitude than 2^(w-p-1) returns the message.", "quantifier": "all words sizes w, p < w, messages and errors", "why_tests_cant": "2^64 errors", "anchors": ["sunscreen_tfhe/src/math/torus.rs: encode, decode"]}
{"id": "C49", "title": "Radix decomposition is exact up to rounding with small balanced digits", "statement": "The digits of a value lie in [-B/2, B/2) and recompose to the value within half the smallest represented step.", "quantifier": "all values, radix logs and counts with log*count < word size", "why_tests_cant": "domain", "anchors": ["sunscreen_tfhe/src/math/radix.rs", "sunscreen_tfhe/src/math/simd/scalar.rs: vector_next_decomp"]}
{"id": "C50", "title": "LWE decryption inverts encryption", "statement": "Decrypting an encryption of m under any key, mask and error below the bound returns m.", "quantifier": "all keys, masks, dimensions, messages and errors", "why_tests_cant": "randomised inputs", "anchors": ["sunscreen_tfhe/src/ops/encryption/lwe_encryption.rs", "sunscreen_tfhe/src/entities/lwe_secret_key.rs"]}
{"id": "C51", "title": "LWE/GLWE operations are homomorphic", "statement": "Adding, subtracting, negating, scaling and rotating ciphertexts has exactly that effect on the phase, for every key.", "quantifier": "all ciphertexts, keys and parameters", "why_tests_cant": "domain", "anchors": ["sunscreen_tfhe/src/ops/ciphertext/lwe_ciphertext_ops.rs", "sunscreen_tfhe/src/ops/ciphertext/glwe_ciphertext_ops.rs"]}
{"id": "C52", "title": "Key switching changes the key, not the message", "statement": "The phase of the switched ciphertext under the new key is the old phase plus a bounded error.", "quantifier": "all keys, ciphertexts, radix parameters", "why_tests_cant": "randomised inputs", "anchors": ["sunscreen_tfhe/src/ops/keyswitch/lwe_keyswitch.rs"]}
{"id": "C53", "title": "Sample extraction extracts the requested coefficient", "statement": "The LWE phase of the extracted sample under the flattened key is coefficient h of the GLWE phase.", "quantifier": "all ciphertexts, keys, degrees, k and h", "why_tests_cant": "negacyclic index arithmetic for all h", "anchors": ["sunscreen_tfhe/src/ops/ciphertext/glwe_ciphertext_ops.rs: sample_extract"]}
{"id": "C54", "title": "GLWE decryption inverts encryption", "statement": "Decrypting a GLWE encryption written into a ciphertext buffer returns message plus error.", "quantifier": "all keys, masks, messages, errors and previous buffer contents", "why_tests_cant": "randomised inputs; buffer reuse", "anchors": ["sunscreen_tfhe/src/ops/encryption/glwe_encryption.rs"]}
{"id": "C55", "title": "Polynomial multiplication is negacyclic convolution and monomial rotation agrees with it", "statement": "Multiplying in the ring is the convolution with sign wrap; multiplying by X^n equals rotation.", "quantifier": "all degrees, polynomials and n", "why_tests_cant": "domain", "anchors": ["sunscreen_tfhe/src/math/polynomial.rs", "sunscreen_tfhe/src/ops/bootstrapping/blind_rotation.rs"]}
{"id": "C56", "title": "One-time-pad recryption recovers the message", "statement": "Adding a pad to a binary message homomorphically, decrypting and removing the pad returns the message.", "quantifier": "all messages and pads", "why_tests_cant": "domain", "anchors": ["parasol_runtime/src/crypto/recryption.rs"]}
{"id": "C57", "title": "Barrett reduction is reduction modulo q", "statement": "For every modulus the derive macro accepts, mul_mod(a,b) = a*b mod q.", "quantifier": "all limb counts, moduli up to 2^(64n-1) and operands", "why_tests_cant": "multi-limb domain", "anchors": ["sunscreen_math/src/ring/barrett.rs", "sunscreen_math_macros/src/lib.rs"]}
{"id": "C58", "title": "Combination enumeration is complete and in order", "statement": "The iterator yields every t-subset of n exactly once in lexicographic order and at_index/get_index are inverse bijections agreeing with it.", "quantifier": "all n >= 1, t <= n", "why_tests_cant": "combinatorial domain", "anchors": ["sunscreen_math/src/combination.rs"]}
{"id": "C59", "title": "Triangular pairs enumerate every i <= j once, in order", "statement": "The iterator yields exactly the pairs (items[i], items[j]) with i <= j.", "quantifier": "all sequences", "why_tests_cant": "unbounded", "anchors": ["sunscreen_tfhe/src/iteration/triangular_pairs.rs"]}
{"id": "C60", "title": "Rounded division rounds to nearest", "statement": "div_rounded(a, b) is the integer nearest to a/b.", "quantifier": "all a and b > 0", "why_tests_cant": "domain; odd divisors and 1", "anchors": ["sunscreen_tfhe/src/math/basic.rs"]}
{"id": "C61", "title": "Load immediate loads the number written in the program", "statement": "LoadI imm, width accepts exactly the 32-bit immediates that represent an unsigned or negative two's complement number of the given width, and then the register holds that number modulo 2^width with that width; any other immediate is an OutOfRange error.", "quantifier": "all 32-bit immediates and all widths 1..128", "why_tests_cant": "2^32 immediates times 128 widths times two build profiles; the boundary cases differ per width", "anchors": ["parasol_cpu/src/proc/ops/loadi.rs: loadi"]}
{"id": "C62", "title": "Computing on encrypted operands agrees with computing on plaintext operands", "statement": "For every arithmetic, logic, comparison, shift, cast and select instruction, the register produced from encrypted operands (or a mix of encrypted and plaintext operands) decrypts to the value the instruction specifies for the decrypted operands, with the same width.", "quantifier": "all widths 1..128, all operand values, every mix of plaintext and encrypted operands", "why_tests_cant": "all operand values and widths; encrypted execution takes seconds per sample", "anchors": ["parasol_cpu/src/proc/ops/*.rs", "parasol_cpu/src/proc/mod.rs: register_to_l1glwe_by_trivial_lift", "parasol_runtime/src/circuits/*"]}
{"id": "C63", "title": "A register stored to memory is the register loaded back", "statement": "For a Store of width w through a plaintext pointer register followed by a Load of the same width at the same address, the loaded register has width w, the same encrypted/plaintext status and the stored value modulo 2^w, and no byte outside the accessed range changes. Misaligned or out-of-range addresses, encrypted pointers and ranges mixing plaintext and encrypted bytes are rejected and leave memory unchanged.", "quantifier": "all registers, widths, base addresses and signed offsets, all memories", "why_tests_cant": "all 2^32 addresses, offsets and contents; tests use a handful of programs", "anchors": ["parasol_cpu/src/proc/ops/load.rs: load", "parasol_cpu/src/proc/ops/store.rs: store"]}
{"id": "C64", "title": "Arguments and results survive conversion to bytes and back", "statement": "For every supported argument type (primitive integers, encrypted integers, arrays of them), decoding the encoded bytes gives the original value, the encoded length is the declared size, and byte strings of the wrong length or the wrong encryption status are rejected.", "quantifier": "all values, all integer widths, all array lengths", "why_tests_cant": "round trip over every value of every width and over nested array lengths", "anchors": ["parasol_cpu/src/proc/args.rs: ToArg", "parasol_cpu/src/proc/mod.rs"]}
{"id": "C65", "title": "The program placed in memory is the program fetched", "statement": "After a program is allocated in memory, fetching instruction word i from the returned entry point gives the i-th word of the program, and nothing else in memory changes.", "quantifier": "all programs that fit in memory, all prior memories", "why_tests_cant": "any length and content of the program and any prior layout", "anchors": ["parasol_cpu/src/memory/mod.rs: allocate_program, try_load_plaintext_dword"]}
{"id": "C66", "title": "ELF segments are loaded exactly", "statement": "Loading an ELF image places each loadable segment's file bytes at its virtual address, zero-fills the rest of its memory size, and changes no other mapped byte; a fresh memory is all zeros.", "quantifier": "all lists of non-overlapping segments, at any addresses and sizes", "why_tests_cant": "page straddling and sharing depends on all addresses and sizes; tests load one or two binaries", "anchors": ["parasol_cpu/src/memory/mod.rs: new_from_elf, new"]}
{"id": "C67", "title": "Packed allocations are disjoint", "statement": "Ranges handed out by one packed Allocation never overlap, whatever the sequence of sizes and alignments.", "quantifier": "all request sequences, all prior memories", "why_tests_cant": "depends on the whole history of requests", "anchors": ["parasol_cpu/src/memory/mod.rs: Allocation::try_allocate"]}
{"id": "C68", "title": "A malformed FHE circuit is an error, not an abort", "statement": "Running any operation of an FHE circuit with the wrong number, labels or types of inputs, with inputs that were never produced or with an out-of-range sample index yields an error; no circuit can make an operation abort.", "quantifier": "all operations and all input lists", "why_tests_cant": "every operation times every combination of inputs", "anchors": ["parasol_runtime/src/circuit_processor/task.rs: validate", "parasol_runtime/src/circuit_processor/mod.rs: exec_op"]}
{"id": "C69", "title": "The gas reported for a program is reproducible", "statement": "Two runs of the same program on the same inputs report the same gas, whatever the thread schedule.", "quantifier": "all programs, inputs and schedules", "why_tests_cant": "the gas is computed from register contents while other threads may still be producing them", "anchors": ["parasol_cpu/src/proc/fhe_processor.rs: compute_gas, dispatch_instruction"]}
{"id": "C70", "title": "Inserting an element into a reduced combination is an order-preserving bijection", "statement": "insert_element_into_reduced_combination(e, c) returns the combination obtained from c by making room for e, together with e's position; it is a bijection onto the combinations containing e and preserves lexicographic order.", "quantifier": "all n, t, e < n and combinations of n-1", "why_tests_cant": "combinatorial domain", "anchors": ["sunscreen_math/src/combination.rs: insert_element_into_reduced_combination"]}
{"id": "C71", "title": "Polynomial arithmetic is ring arithmetic", "statement": "Addition, subtraction, negation, scaling, multiplication, evaluation and degree of coefficient vectors agree with the polynomials they denote, evaluation is a homomorphism, and division by a monic polynomial gives the unique quotient and remainder.", "quantifier": "all commutative rings, all coefficient vectors (any length, leading zeros allowed)", "why_tests_cant": "unbounded vectors over arbitrary rings", "anchors": ["sunscreen_math/src/poly/mod.rs"]}
{"id": "C72", "title": "Polynomial equality is equality of polynomials", "statement": "Two coefficient vectors compare equal exactly if they denote the same polynomial.", "quantifier": "all rings and vectors", "why_tests_cant": "unbounded vectors", "anchors": ["sunscreen_math/src/poly/mod.rs: PartialEq"]}
{"id": "C73", "title": "Conversion of integers into Zq is reduction modulo q", "statement": "Zq::from(x) is x mod q for every u64 and i64.", "quantifier": "all moduli the derive accepts and all 64-bit integers", "why_tests_cant": "domain of moduli and integers", "anchors": ["sunscreen_math/src/ring/mod.rs: From<u64>, From<i64>"]}
{"id": "C74", "title": "MulXN and Not act on coefficients as documented", "statement": "In an FHE circuit, MulXN(n) on a packed ciphertext yields a packed ciphertext in which coefficient i of the input sits at position (i+n) mod N, for every n including n >= N; Not flips the constant coefficient and leaves every other coefficient alone.", "quantifier": "every n, every polynomial degree, every packed plaintext", "why_tests_cant": "A test fixes n and one polynomial; the wrap-around cases (n >= N, n a multiple of N or 2N) take different branches in the code.", "anchors": ["parasol_runtime/src/circuit_processor/mod.rs: exec_op (MulXN, Not)", "parasol_runtime/src/crypto/evaluation.rs: mul_xn, not", "sunscreen_tfhe/src/entities/polynomial.rs: mul_by_positive_monomial_negacyclic"]}
{"id": "C75", "title": "Programs with plaintext control run as written", "statement": "A program that never uses a value depending on an unfinished encrypted computation as an address or a branch condition, and that halts when run one instruction at a time, terminates on the processor under every schedule, without fault, with exactly the registers, memory and return value of program order.", "quantifier": "all such programs, initial states and schedules", "why_tests_cant": "interleavings of in-flight instructions; loops of any length", "anchors": ["parasol_cpu/src/proc/fhe_processor.rs", "parasol_cpu/src/tomasulo/"]}
{"id": "C76", "title": "Fluent addition, subtraction and bitwise and compute the operation", "statement": "Adding, subtracting or and-ing two encrypted integers through the fluent API yields handles that hold the result modulo 2^(width of the left operand) for every operand value and result type.", "quantifier": "all contexts, widths, operand values and result types", "why_tests_cant": "quantifies over all circuits built so far, all widths and all values", "anchors": ["parasol_runtime/src/fluent/dynamic_generic_int_graph_nodes.rs: add, sub, and"]}
{"id": "C77", "title": "Fluent multiplication computes the product and keeps declared outputs", "statement": "Multiplying two encrypted integers through the fluent API yields handles that hold the product modulo 2^(width of the left operand), and every output declared before keeps its value.", "quantifier": "all contexts, widths, signs, values, result types and hash-map orders", "why_tests_cant": "recursive construction for every width; the circuit is rebuilt in a hash-map dependent order", "anchors": ["parasol_runtime/src/circuits/mul.rs", "parasol_runtime/src/fluent/dynamic_generic_int_graph_nodes.rs: mul"]}
{"id": "C78", "title": "Fluent inputs, constants, conversions, selection and outputs denote what they say", "statement": "Inputs hold the given ciphertext, constants the constant, conversions keep the bits in the target type, select picks the branch, outputs write the value to the returned ciphertext.", "quantifier": "all contexts, types, widths and values", "why_tests_cant": "all circuit contexts and all conversions between types", "anchors": ["parasol_runtime/src/fluent/bit.rs", "parasol_runtime/src/fluent/dynamic_generic_int_graph_nodes.rs", "parasol_runtime/src/fluent/dynamic_generic_int.rs"]}
{"id": "C79", "title": "External product multiplies the message", "statement": "Multiplying a GLWE ciphertext by a GGSW encryption of m yields a ciphertext whose phase is m times the original phase, up to a stated bound on the added noise; decryption returns the product when the noise is below half an encoding step.", "quantifier": "all binary keys, ciphertexts, messages, degrees, gadget parameters, randomness with bounded error", "why_tests_cant": "noise of every input and key must be bounded at once", "anchors": ["sunscreen_tfhe/src/ops/ciphertext/glwe_ciphertext_ops.rs: glwe_ggsw_mad, external_product_ggsw_glwe", "sunscreen_tfhe/src/ops/ciphertext/glev_ciphertext_ops.rs: decomposed_polynomial_glev_mad"]}
{"id": "C80", "title": "CMUX selects", "statement": "CMUX of two ciphertexts under a GGSW encryption of a bit yields a ciphertext of the selected message whatever the output held before, with noise bounded by the gadget error, the key noise and the floating-point error; the GLEV version selects every component.", "quantifier": "all ciphertexts, binary keys, bits, valid radix parameters, key noise up to E, per-coefficient FFT errors up to D, output contents; machines on which polynomial add/sub is exact (C90)", "why_tests_cant": "the noise space is astronomically large", "anchors": ["sunscreen_tfhe/src/ops/fft_ops.rs: cmux, glev_cmux"]}
{"id": "C81", "title": "Lookup tables place every function value", "statement": "For every message and every rotation index within half a window of it, rotating a lookup table by that index brings the value of function i at the message to coefficient i, negated if the padding bit is set; tables that do not fit, empty function lists and out-of-range function values are refused.", "quantifier": "all functions, numbers of functions, plaintext sizes, messages, indices and polynomial degrees", "why_tests_cant": "for all functions and indices", "anchors": ["sunscreen_tfhe/src/ops/bootstrapping/programmable_bootstrapping.rs: generate_lut", "sunscreen_tfhe/src/entities/univariate_lookup_table.rs: fill_trivial_from_fns"]}
{"id": "C82", "title": "Modulus switching rounds to the nearest grid point", "statement": "Modulus switching maps every ciphertext element to the nearest multiple of 2^v on the 2^L grid, and moves the phase under a binary key by at most half a grid step per element.", "quantifier": "all elements, shifts, grid sizes, ciphertexts and binary keys", "why_tests_cant": "every 64-bit value and boundary", "anchors": ["sunscreen_tfhe/src/ops/ciphertext/lwe_ciphertext_ops.rs: modulus_switch, lwe_ciphertext_modulus_switch"]}
{"id": "C83", "title": "Programmable bootstrapping evaluates the table and resets noise", "statement": "Encrypting a p-bit message with a padding bit, bootstrapping with the table of f under a generated bootstrap key and decrypting under the extracted key gives f(m) (negated if the padding bit is set); with several functions coefficient i encrypts function i; the output noise does not depend on the input noise.", "quantifier": "all messages, functions, binary keys, masks, noises within the stated bounds, FFT errors up to D per coefficient, stale output buffers; machines on which polynomial add/sub is exact (C90)", "why_tests_cant": "all keys, noises and functions", "anchors": ["sunscreen_tfhe/src/ops/bootstrapping/programmable_bootstrapping.rs: generate_bootstrap_key, generalized_programmable_bootstrap, programmable_bootstrap_univariate"]}
{"id": "C84", "title": "GLWE key switching preserves the message", "statement": "Switching a ciphertext to a new key leaves its phase unchanged up to a stated noise bound, for key-switch keys made by the key generator.", "quantifier": "all ciphertexts, binary keys, parameters, randomness, machines and build profiles", "why_tests_cant": "all noise values; machine-dependent code paths", "anchors": ["sunscreen_tfhe/src/ops/keyswitch/glwe_keyswitch.rs", "sunscreen_tfhe/src/ops/keyswitch/glwe_keyswitch_key.rs"]}
{"id": "C85", "title": "Private functional keyswitch", "statement": "private_functional_keyswitch with a key generated for a map F from p torus elements to a torus polynomial turns p LWE ciphertexts into one GLWE ciphertext of F applied to their messages, with noise bounded by the rounding of the decomposition times F's Lipschitz constant plus p(n+1) gadget products with the key noise, whatever the output buffer held before.", "quantifier": "all parameters, keys, randomness, additive Lipschitz maps F, input ciphertexts, contents of the output buffer, both build profiles", "why_tests_cant": "the noise bound quantifies over all inputs, keys and randomness; a test with a fresh output buffer cannot see the dependence on old contents", "anchors": ["sunscreen_tfhe/src/ops/keyswitch/private_functional_keyswitch.rs: generate_private_functional_keyswitch_key, private_functional_keyswitch", "sunscreen_tfhe/src/ops/ciphertext/glev_ciphertext_ops.rs: decomposed_scalar_glev_mad"]}
{"id": "C86", "title": "Public-key RLWE encryption decrypts under the secret key", "statement": "Decrypting a ciphertext made with the public key returns the encrypted polynomial, whatever the buffer contained before, when the combined noise E(2N+1) is below half an encoding step.", "quantifier": "all keys, messages, randomness and previous buffer contents", "why_tests_cant": "randomised inputs", "anchors": ["sunscreen_tfhe/src/ops/encryption/rlwe_encryption.rs: rlwe_generate_public_key, rlwe_encode_encrypt_public"]}
{"id": "C87", "title": "The homomorphic trace isolates the constant coefficient", "statement": "Generating an automorphism key, encrypting a polynomial, taking the trace and decrypting yields N times the constant coefficient and zeros elsewhere; in general the phase's constant coefficient is multiplied by N, the others vanish, with noise N - 1 times one key switch, whatever output and scratch buffers hold.", "quantifier": "all degrees, ring sizes, binary keys, plaintexts, randomness and noise within bounds, FFT errors up to D per coefficient, stale buffers; machines on which polynomial subtraction is exact (C90)", "why_tests_cant": "all degrees, keys, noises and buffer contents", "anchors": ["sunscreen_tfhe/src/ops/automorphisms/mod.rs: generate_automorphism_key, trace", "sunscreen_tfhe/src/ops/fft_ops.rs: keyswitch_glwe_to_glwe"]}
{"id": "C88", "title": "Scheme switching turns a GLEV into a GGSW encryption", "statement": "Under a generated scheme-switch key, scheme_switch and scheme_switch_fft turn a GLEV encryption of m into a GGSW encryption of m with the stated noise, overwriting the output.", "quantifier": "all messages, binary keys, noises, GLWE sizes, radix parameters with log*count below the word size, output buffer contents, FFT errors up to D per coefficient", "why_tests_cant": "all keys, messages, noises and previous buffer contents", "anchors": ["sunscreen_tfhe/src/ops/bootstrapping/scheme_switch.rs: generate_scheme_switch_key, scheme_switch", "sunscreen_tfhe/src/ops/fft_ops.rs: scheme_switch_fft"]}
{"id": "C89", "title": "Circuit bootstrapping turns an encrypted bit into a selector", "statement": "circuit_bootstrap_via_trace_and_scheme_switch, given bootstrap, automorphism and scheme-switch keys of the same secret keys and an LWE encryption of a bit m whose noise is below the stated bound, returns a GGSW encryption of m within the stated noise, whatever the scratch buffers hold; used as the selector of a CMUX it picks the ciphertext m designates. The claim that the output buffer is simply overwritten is false: the result is added to the old key rows. Eight or more levels are refused, and a radix with log*count >= word size - 1 always aborts although it passes the validity check.", "quantifier": "all word sizes, degrees, dimensions, radixes, keys, masks, noise and floating-point errors within the bounds, scratch contents and both bits", "why_tests_cant": "the tests run one parameter set and fresh buffers; the noise bound must hold for every mask, error and key", "anchors": ["sunscreen_tfhe/src/ops/bootstrapping/circuit_bootstrapping.rs: circuit_bootstrap_via_trace_and_scheme_switch, hi_noise_lwe_to_lo_noise_glwe, mod_switch_trace_and_rotate, fill_multifunctional_cbs_decomposition_lut"]}
{"id": "C90", "title": "Polynomial addition and subtraction agree on every machine and build", "statement": "Adding or subtracting polynomials gives the same ring result on every supported CPU and in debug and release builds.", "quantifier": "all polynomials, word sizes, CPU features and build profiles", "why_tests_cant": "needs every CPU feature combination", "anchors": ["sunscreen_tfhe/src/math/simd/x86_64/mod.rs: vector_add, vector_sub", "sunscreen_tfhe/src/math/simd/x86_64/avx2.rs", "sunscreen_tfhe/src/math/polynomial.rs: polynomial_add, polynomial_sub"]}
{"id": "C91", "title": "GLEV and GGSW encryption and decryption", "statement": "Every entry of a GLEV/GGSW encryption encrypts the message scaled by its gadget factor (and, in GGSW mask rows, multiplied by minus the key polynomial); decrypting a GGSW encryption of a message of at most log bits returns it; messages with too many bits are refused.", "quantifier": "all messages, keys, parameters, randomness", "why_tests_cant": "all noise values", "anchors": ["sunscreen_tfhe/src/ops/encryption/glev_encryption.rs", "sunscreen_tfhe/src/ops/encryption/ggsw_encryption.rs"]}
{"id": "C92", "title": "Bivariate bootstrapping evaluates two-argument functions", "statement": "Bootstrapping two ciphertexts with a bivariate table and decrypting with carry gives f(l, r).", "quantifier": "all messages, functions, keys, noises within bounds, carry sizes at least the message size, FFT errors up to D per coefficient; machines on which polynomial add/sub is exact (C90)", "why_tests_cant": "all keys, noises and functions", "anchors": ["sunscreen_tfhe/src/ops/bootstrapping/programmable_bootstrapping.rs: bivariate_function, generate_bivariate_lut, programmable_bootstrap_bivariate", "sunscreen_tfhe/src/high_level.rs: decrypt_lwe_with_carry"]}
{"id": "C93", "title": "Blind rotation multiplies by the encrypted monomial", "statement": "Encrypting a rotation amount and blindly rotating a GLWE ciphertext multiplies its message by X^(-rotation) in the negacyclic ring, with noise of log2(N) CMUXes.", "quantifier": "all rotations below the degree, ciphertexts, binary keys, noises, FFT errors up to D per coefficient; machines on which polynomial add/sub is exact (C90)", "why_tests_cant": "all rotations, degrees and noises", "anchors": ["sunscreen_tfhe/src/ops/bootstrapping/blind_rotation.rs: generate_blind_rotation_shift, blind_rotation"]}
{"id": "C94", "title": "polynomial_pow_k computes P(X^k)", "statement": "polynomial_pow_k writes P(X^k) reduced modulo X^N + 1 to its output, for every k; the substitution is a ring homomorphism.", "quantifier": "all polynomials, exponents, output buffers", "why_tests_cant": "all degrees and exponents", "anchors": ["sunscreen_tfhe/src/ops/polynomial/mod.rs: polynomial_pow_k"]}
{"id": "C95", "title": "Power-of-two modulus switch divides the phase", "statement": "Switching a GLWE ciphertext down by n bits divides each coefficient by 2^n rounded to nearest; 2^n times the new phase is the old phase up to half a step per key coefficient.", "quantifier": "all ciphertexts, binary keys, 1 <= n < word size", "why_tests_cant": "all ciphertexts and keys", "anchors": ["sunscreen_tfhe/src/ops/ciphertext/glwe_ciphertext_ops.rs: glwe_mod_switch_and_expand_pow_2", "sunscreen_tfhe/src/math/simd/scalar.rs: vector_shr_round"]}
{"id": "C96", "title": "Upper-triangular key storage", "statement": "The triangular-pair iterator yields exactly the pairs (i, j), i <= j, in row order, and the linear index of (i, j), in either order, is the position of that pair, injectively and within bounds; indices out of range are refused.", "quantifier": "all sizes and indices", "why_tests_cant": "all sizes", "anchors": ["sunscreen_tfhe/src/iteration/triangular_pairs.rs: TriangularPairs", "sunscreen_tfhe/src/entities/scheme_switch_key.rs: get_linear_index, triangular_number_entries"]}
{"id": "C97", "title": "Circuit bootstrapping through private functional keyswitching", "statement": "circuit_bootstrap_via_pfks turns an LWE encryption of a bit into a GGSW encryption of that bit under the target key, usable as the selector of a CMUX, for every bit, key and randomness, with an explicit noise bound, whatever the output and scratch buffers held before.", "quantifier": "all parameters, keys, randomness, bits, scratch and output contents, floating-point errors up to a bound", "why_tests_cant": "noise and scratch contents range over all values; tests use fresh output buffers", "anchors": ["sunscreen_tfhe/src/ops/bootstrapping/circuit_bootstrapping.rs: circuit_bootstrap_via_pfks, extract_and_rotate_lo_noise_glwe, apply_pfks_on_ggsw_components", "sunscreen_tfhe/src/ops/keyswitch/private_functional_keyswitch.rs: generate_circuit_bootstrapping_pfks_keys"]}
{"id": "C98", "title": "Public functional keyswitch", "statement": "public_functional_keyswitch turns p LWE ciphertexts into a GLWE ciphertext of F applied to their messages, where the map is handed a polynomial documented as initialised to 0; the result does not depend on the previous contents of the output or of scratch memory.", "quantifier": "all parameters, keys, randomness, maps, inputs, scratch and output contents", "why_tests_cant": "the contents of the thread-local scratch arena depend on the whole history of the thread", "anchors": ["sunscreen_tfhe/src/ops/keyswitch/public_functional_keyswitch.rs: generate_public_functional_keyswitch_key, public_functional_keyswitch", "sunscreen_tfhe/src/scratch.rs"]}
{"id": "C99", "title": "Scratch buffers behave as private arrays", "statement": "The temporary buffers handed out by allocate_scratch behave as private arrays for every history of allocations, drops (in any order), loads and stores on a thread: no access leaves its heap block, a load returns what the holder of that buffer last stored there, two buffers held at once never share memory, each is large enough and aligned for its element type and for SIMD, a history within memory limits is never refused, and the number of heap blocks never exceeds the largest number of buffers held at once. A fresh buffer is zeroed (false: reused buffers show what was stored before).", "quantifier": "all histories of allocations, drops, loads and stores; all element sizes, alignments and counts; both build profiles", "why_tests_cant": "histories are unbounded and the failure mode is undefined behaviour of unsafe code, which a test can pass by luck", "anchors": ["sunscreen_tfhe/src/scratch.rs: allocate_scratch, Scratch::allocate, ScratchBuffer::as_slice, as_mut_slice, drop"]}
{"id": "C100", "title": "Strided iteration visits every element exactly once", "statement": "Iterating a list entity (ciphertext list, key, polynomial list) from either end in any order, mutably or not, sequentially or in parallel with the work cut arbitrarily, hands out exactly its elements, each once and in order; mutable references never overlap and never leave the slice; a slice that is not a whole number of elements is refused; the reported length is the number of elements left; an empty list can be iterated.", "quantifier": "all element types, strides, list lengths, interleavings of next and next_back, and ways the thread pool divides the work", "why_tests_cant": "interleavings and split trees are unbounded and chosen by the thread pool; the mutable iterators are unsafe code", "anchors": ["sunscreen_tfhe/src/dst.rs: dst_iter!"]}
{"id": "C101", "title": "Homomorphic circuits compute on ciphertexts what they compute on plaintexts", "statement": "Generate keys, build a circuit processor, encrypt the inputs, run any FHE circuit built from the supported operations (input, output, NOT, addition, multiplication, CMUX, GLEV CMUX, key switch, circuit bootstrap, scheme switch, sample extraction, multiplication by X^n, constants), decrypt what the outputs stored: the result is what the circuit computes on the plaintext bits, for every choice of masks, every error within the noise bounds, every content of the scratch buffers and every order of execution that respects the edges. An operation fails on ciphertexts exactly when it fails on the plaintexts. This includes every circuit generated from decision diagrams (all integer operations).", "quantifier": "all parameter sets that satisfy the stated arithmetic side conditions, all keys, masks, errors, circuits, inputs and execution orders", "why_tests_cant": "the randomness, the circuits and the inputs are unbounded; a test sees one draw of the noise", "anchors": ["parasol_runtime/src/circuit_processor/mod.rs: CircuitProcessor::exec_op, CircuitProcessor::new", "parasol_runtime/src/crypto/evaluation.rs: Evaluation, ServerEvaluation", "parasol_runtime/src/crypto/keys.rs: ComputeKeyNonFft::generate", "parasol_runtime/src/crypto/encryption.rs: Encryption::decrypt_*, trivial_*"]}
{"id": "C102", "title": "Encryption of bits and polynomials at the runtime's API decrypts to the message", "statement": "Encrypting a bit or a binary polynomial as any of the five ciphertext kinds, under the secret key or (GLWE and GLEV) the public key, gives a ciphertext that decrypts to the message, for every choice of masks and every error within the bound, for every degree allowed by the parameters. (False for public-key GLEV encryption below degree 16, which aborts in a leftover debugging statement.)", "quantifier": "all messages, keys, masks, errors, degrees", "why_tests_cant": "a test sees one draw of the randomness and one parameter set", "anchors": ["parasol_runtime/src/crypto/encryption.rs: encrypt_lwe_l0_secret, encrypt_lwe_l1_secret, encrypt_glwe_l1_secret, encrypt_rlwe_l1, encrypt_glev_l1_secret, encrypt_rlev_l1, encrypt_ggsw_l1_secret", "parasol_runtime/src/crypto/keys.rs: PublicKey::generate", "sunscreen_tfhe/src/ops/encryption/glev_encryption.rs: encrypt_rlev"]}
{"id": "C103", "title": "Polynomial multiplication through the FFT is the negacyclic product", "statement": "For every power-of-two degree up to 4096, every word size and every list of pairs of polynomials: transforming each polynomial, multiply-adding the transforms into a cleared accumulator and transforming back gives the sum of the products in Z[X]/(X^N+1) modulo 2^w (in exact arithmetic). Every other length panics. (False for a coefficient whose exact value leaves remainder -2^(w-1): the final saturating conversion makes it one too small. On x86 degrees below 16 panic.)", "quantifier": "all degrees, word sizes, lists of polynomial pairs, both multiply-add kernels", "why_tests_cant": "the polynomials range over 2^(64*2048) values; tests use random ones and cannot meet the one wrong value", "anchors": ["sunscreen_tfhe/src/math/fft/negacyclic/mod.rs: TwistedFft::new, forward, reverse, get_fft", "sunscreen_tfhe/src/entities/polynomial.rs: PolynomialRef::fft", "sunscreen_tfhe/src/entities/polynomial_fft.rs: ifft, multiply_add", "sunscreen_tfhe/src/math/simd/scalar.rs: complex_twist, complex_untwist, complex_mad, vector_mod_pow2_q_f64"]}
{"id": "C104", "title": "Rounding in the FFT changes a product by at most a stated bound", "statement": "With every f64 operation correctly rounded, and tables and transforms of stated accuracy, a sum of L products of polynomials with coefficients bounded by A and B, computed through the FFT, never panics and differs in every coefficient from the exact negacyclic sum by an integer of at most an explicit bound in (degree, precision, A, B, L), modulo 2^w; when the bound is below 1/2 the result is that of exact arithmetic. IEEE double precision with the tables the program builds meets the hypotheses.", "quantifier": "all degrees up to 4096, all polynomials within the bounds, all roundings, tables and transforms of the stated accuracy, both multiply-add kernels", "why_tests_cant": "rounding errors depend on all coefficients; a test sees a typical error, not the worst one", "anchors": ["sunscreen_tfhe/src/math/fft/negacyclic/mod.rs: TwistedFft", "sunscreen_tfhe/src/entities/polynomial_fft.rs: ifft, multiply_add", "sunscreen_tfhe/src/math/simd/scalar.rs: mod_q, vector_mod_pow2_q_f64", "sunscreen_tfhe/src/math/torus.rs: from_f64"]}
{"id": "C105", "title": "Every instruction does what the assembly language documents", "statement": "For every instruction found at the program counter, in both build profiles, with plaintext, encrypted or mixed operands: the destination register gets the documented value, width and encryption; no other register and (except for stores) no memory changes; stores change exactly the addressed bytes; loads return them; branches go to the documented target (relative to the branch itself) or to the next instruction; ret halts; branching on a ciphertext is reported; the gas counted is the documented price. (Within the operand ranges where the single operations are right; the exceptions are C12-C17, C61-C63, C69.)", "quantifier": "all machine states, instructions, operand values, widths and offsets, both build profiles", "why_tests_cant": "states, operand values and widths are unbounded in combination; a test runs a few programs", "anchors": ["parasol_cpu/src/proc/fhe_processor.rs: exec_instruction, next_program_counter, compute_gas", "parasol_cpu/src/proc/assembly.rs: define_op", "parasol_cpu/src/proc/ops: every instruction"]}
{"id": "C106", "title": "CMUX, blind rotation and bootstrapping through the floating-point FFT equal the integer algorithms with a bounded error", "statement": "For every power-of-two degree up to 4096, radix, key in Fourier form obtained from a key of machine words and operands of machine words, the FFT implementations of cmux, glev_cmux, blind rotation and generalized programmable bootstrapping return exactly what the integer algorithm returns when an error of at most D per coefficient is added to each external product, where D bounds the rounding error of (k+1)*count products of words and digits; hence CMUX selects the operand named by the encrypted bit up to the stated noise. At DEFAULT_128's bootstrapping radix D < 2^58 (2^60 with transforms accurate to 2^-45).", "quantifier": "all degrees 2^1..2^12 (2^4.. on x86), radices, ciphertexts, keys, buffers, machine arithmetics meeting the accuracy contract, both multiply-add kernels", "why_tests_cant": "rounding error depends on all coefficients of operand and key; tests only sample", "anchors": ["sunscreen_tfhe/src/ops/fft_ops.rs: cmux, glev_cmux, glwe_ggsw_mad, decomposed_polynomial_glev_mad, glwe_polynomial_mad", "sunscreen_tfhe/src/ops/bootstrapping/programmable_bootstrapping.rs: generalized_programmable_bootstrap", "sunscreen_tfhe/src/ops/bootstrapping/blind_rotation.rs", "sunscreen_tfhe/src/entities/bootstrap_key.rs: fft"]}
{"id": "C107", "title": "Bootstrapping through the floating-point FFT computes the function, end to end", "statement": "Generate a bootstrap key, transform it to the Fourier domain, encrypt a message, bootstrap with the table of any function (or two messages with a bivariate function) using the FFT implementation and decrypt under the extracted key: the result is the function of the message(s), negated modulo 2^p when the padding bit is set, whenever input noise, key noise and the FFT's product error stay within the stated budget.", "quantifier": "all messages, functions, keys, masks, noises within the bounds, degrees up to 4096, machine arithmetics with product error at most D", "why_tests_cant": "quantifies over all keys, randomness and rounding behaviours", "anchors": ["sunscreen_tfhe/src/ops/bootstrapping/programmable_bootstrapping.rs: programmable_bootstrap_univariate, programmable_bootstrap_bivariate, generate_bootstrap_key", "sunscreen_tfhe/src/entities/bootstrap_key.rs: fft", "sunscreen_tfhe/src/ops/fft_ops.rs"]}
{"id": "C108", "title": "Key switching, trace, scheme switch and circuit bootstrap through the FFT compute the integer operation with bounded error", "statement": "With keys transformed to the Fourier domain, GLWE key switching, the trace, scheme switching and circuit bootstrapping (into a fresh output) succeed and fail exactly as the integer operations, and give the integer result up to an error of at most D per coefficient in each product, where D is the proved rounding bound of the machine's f64 arithmetic. The GGSW ciphertext a circuit bootstrap leaves in Fourier form selects in a CMUX like the integer one with product error at most D4 (a bound that accounts for it never being reduced modulo 2^w), so every CMUX with it returns the ciphertext the encrypted bit names.", "quantifier": "all ciphertexts, keys of machine words, contents of scratch buffers, radices, degrees 2..4096 (16.. on x86), machine arithmetics within the stated accuracy, all multiply-add kernels", "why_tests_cant": "the error depends on every coefficient and rounding of a long pipeline; tests only sample", "anchors": ["sunscreen_tfhe/src/ops/fft_ops.rs: keyswitch_glwe_to_glwe, scheme_switch_fft", "sunscreen_tfhe/src/ops/automorphisms/mod.rs: trace", "sunscreen_tfhe/src/ops/bootstrapping/circuit_bootstrapping.rs: circuit_bootstrap_via_trace_and_scheme_switch", "sunscreen_tfhe/src/entities/{glwe_keyswitch_key,automorphism_key,scheme_switch_key}.rs: fft"]}
{"id": "C109", "title": "Circuit bootstrapping through the FFT, end to end", "statement": "Generate bootstrap, automorphism and scheme-switch keys (the products of key polynomials being computed exactly by the FFT), transform them, encrypt a bit, circuit bootstrap it in the Fourier domain, use the result as selector of a CMUX between two ciphertexts and decrypt: the message of the ciphertext the bit names, whenever noise and FFT error stay within the stated budget.", "quantifier": "all keys, bits, masks, noises within the bounds, messages, scratch contents, machine arithmetics within the stated accuracy", "why_tests_cant": "quantifies over all keys, randomness and rounding behaviours", "anchors": ["sunscreen_tfhe/src/ops/bootstrapping/circuit_bootstrapping.rs", "sunscreen_tfhe/src/ops/bootstrapping/scheme_switch.rs: generate_scheme_switch_key", "sunscreen_tfhe/src/ops/fft_ops.rs: cmux, scheme_switch_fft"]}
{"id": "C110", "title": "FHE circuits as the code runs them, with GGSW ciphertexts and keys in Fourier form", "statement": "Generate a secret key and compute keys, build a processor, run any circuit of FHE operations on encrypted inputs with every GGSW ciphertext, bootstrap key, automorphism key and scheme-switch key held and multiplied in the Fourier domain by floating-point arithmetic of the stated accuracy: each node succeeds exactly when it does on plaintext messages, its outcome does not depend on the schedule or on stale scratch contents, and every output decrypts to the message the circuit computes, as long as a static noise analysis that includes the FFT error stays within the decryption bound. In particular the integer circuits made from decision diagrams compute the diagrams.", "quantifier": "all parameter sets and machine arithmetics within the bounds, all keys, randomness, circuits, inputs, stale buffers, execution orders", "why_tests_cant": "quantifies over all circuits, keys, randomness and rounding behaviours", "anchors": ["parasol_runtime/src/crypto/evaluation.rs", "parasol_runtime/src/fhe_circuit.rs", "parasol_runtime/src/circuit_processor/mod.rs: exec_op", "sunscreen_tfhe/src/ops/fft_ops.rs", "parasol_runtime/src/crypto/keys.rs: ComputeKey"]}
{"id": "C111", "title": "SIMD kernels compute the same multiply-adds on every machine", "statement": "The x86 complex multiply-add gives, on a CPU with AVX-512 and for any register contents, the element-wise fused multiply-add, and on other CPUs the plain one, refusing slices of different length or of a length that is not a multiple of 8. The multiply-add of a polynomial by a scalar, which private functional key switching is made of, is the exact ring operation modulo 2^w for all polynomials of the degree and all scalars.", "quantifier": "all slices, scalars, register contents, CPU features, build profiles, word sizes and degrees", "why_tests_cant": "a test runs on one CPU and one build profile; the claim ranges over all machines and all inputs", "anchors": ["sunscreen_tfhe/src/math/simd/x86_64/avx512.rs: complex_mad_avx_512_unchecked, vector_scalar_mad", "sunscreen_tfhe/src/math/simd/x86_64/mod.rs: complex_mad, vector_mod_pow2_q_f64, VectorOps", "sunscreen_tfhe/src/math/polynomial.rs: polynomial_small_scalar_mad", "sunscreen_tfhe/src/ops/ciphertext/glev_ciphertext_ops.rs"]}
{"id": "C112", "title": "Checked deserialisation accepts exactly the well-formed objects", "statement": "safe_bincode::deserialize of a SecretKey, PublicKey, ComputeKeyNonFft, ComputeKey, L0/L1 LWE, L1 GLWE, GLEV or GGSW ciphertext, PublicOneTimePad or SecretOneTimePad succeeds exactly when the bytes begin with the serialisation of an object whose every part has the size the parameters prescribe, and then returns that object; on all other bytes (truncated, wrong or absurd length fields, another parameter set) it returns an error and never aborts. What serialize wrote is read back unchanged, whatever follows it, and its length in bytes depends only on the parameters.", "quantifier": "all byte strings, all parameter sets, all objects", "why_tests_cant": "all byte strings an attacker may send, all parameter sets", "anchors": ["parasol_runtime/src/safe_bincode.rs deserialize", "parasol_runtime/src/crypto/keys.rs GetSize", "parasol_runtime/src/crypto/encryption.rs GetSize", "parasol_runtime/src/crypto/recryption.rs GetSize", "sunscreen_tfhe/src/dst.rs check_is_valid", "sunscreen_tfhe/src/entities"]}
{"id": "C113", "title": "An accepted secret object can be used", "statement": "A SecretKey or SecretOneTimePad accepted by the checked deserialisation can be used like a generated one: compute keys can be generated from the key, and decrypt_one_time_pad computes the exclusive or of the message with the pad without aborting.", "quantifier": "all accepted byte strings, all messages, both build profiles", "why_tests_cant": "all contents of a key buffer, not only those the generators produce", "anchors": ["parasol_runtime/src/crypto/keys.rs SecretKey::check_is_valid ComputeKeyNonFft::generate", "parasol_runtime/src/crypto/recryption.rs decrypt_one_time_pad SecretOneTimePad::check_is_valid", "sunscreen_tfhe/src/ops/encryption/ggsw_encryption.rs encrypt_ggsw_ciphertext_scalar"]}
{"id": "C114", "title": "Encryption under an LWE public key decrypts, and its returned randomness explains it", "statement": "For every binary LWE secret key, LwePublicKey::generate followed by encrypt of any message that fits the plaintext space gives a ciphertext that LweSecretKey::decrypt maps back to the message whenever dimension·(key noise + mask error) + body error stays below half a message step. For any public key of the right shape the ciphertext equals the encoded message plus the rows selected by the returned r plus the returned error, so the PublicEncRandomness the caller receives (e.g. for a proof of encryption) is the one actually used. Keys or rows of another dimension and plaintext spaces that do not fit the word are refused.", "quantifier": "all dimensions, words, keys, messages, plaintext spaces and random choices", "why_tests_cant": "tests sample a few random keys of one dimension; the claim is for all keys and all random choices", "anchors": ["sunscreen_tfhe/src/entities/lwe_public_key.rs LwePublicKey::generate encrypt", "sunscreen_tfhe/src/entities/lwe_public_key.rs PublicEncRandomness"]}
{"id": "C115", "title": "One-time-pad recryption works end to end on ciphertexts", "statement": "generate_one_time_pad under a PublicKey, sending the public pad through serialize/deserialize, and recrypt_one_time_pad of any L1 GLWE ciphertext of a message give a ciphertext whose decryption is exactly message xor pad, from which decrypt_one_time_pad with the secret pad returns the message, provided the noise of the two ciphertexts adds up to less than the decryption margin.", "quantifier": "all parameter sets with one mask polynomial, keys, messages, pads, random choices, noise within the bound, both build profiles", "why_tests_cant": "all messages, pads and noise values; composition over key generation, encryption, transport and decryption", "anchors": ["parasol_runtime/src/crypto/recryption.rs generate_one_time_pad recrypt_one_time_pad decrypt_one_time_pad", "parasol_runtime/src/safe_bincode.rs deserialize"]}
{"id": "C116", "title": "Samplers turn generator output into the intended torus elements", "statement": "uniform_torus and binary map uniformly distributed generator words to exactly uniform torus elements and bits (every value has the same number of preimages), so generated binary keys are binary. normal_torus returns the torus point nearest to the Gaussian value modulo 1, and never an error larger than the Gaussian value, so encryption with a sampled error decrypts whenever the Gaussian value is below half a message step.", "quantifier": "all generator words, all double Gaussian values, both word sizes, all keys, messages and plaintext spaces", "why_tests_cant": "tests sample and compare moments; the claim is about every generator output", "anchors": ["sunscreen_tfhe/src/rand.rs normal_torus uniform_torus binary binary_torus_polynomial normal_torus_polynomial", "sunscreen_tfhe/src/math/torus.rs FromU64"]}
{"id": "C117", "title": "Torus elements, positions and distances", "statement": "normalized_torus is the position x/2^w of the element on the unit torus, in [0,1), monotone, exact for 32-bit words and within 2^-53 for 64-bit words. normalized_torus_distance is the shorter signed way from the first to the second point, at most 1/2 in absolute value, exact for 32-bit words and within 2^-54 for 64-bit words. switch_modulus_smaller keeps the leading bits: the position moves down by less than one step of the smaller torus and the conversion never fails.", "quantifier": "all torus elements of both word sizes, IEEE double rounding of every operation", "why_tests_cant": "2^64 elements; rounding at the top of the range", "anchors": ["sunscreen_tfhe/src/math/torus.rs normalized_torus normalized_torus_distance switch_modulus_smaller"]}
{"id": "C118", "title": "Running statistics", "statement": "After any sequence of samples RunningMeanVariance reports, up to rounding, the average, the population variance and the standard deviation of all of them. With every operation rounded to double precision the mean lies between the smallest and the largest sample and the variance is not negative, so std is not NaN once there is a sample.", "quantifier": "all sequences of samples of any length", "why_tests_cant": "all sequences and all rounding errors", "anchors": ["sunscreen_math/src/stats.rs RunningMeanVariance"]}
{"id": "C119", "title": "The security estimates answer on their documented domain", "statement": "lwe_security_level_to_std and lwe_std_to_security_level return an estimate exactly for the documented arguments (dimensions 368 to 2048, levels 78 to 130, with a further constraint only above 1472 dimensions) and an error naming the region elsewhere; ConvexPolytope2D::inside holds exactly when violations is empty and describes a convex region.", "quantifier": "all dimensions, levels and standard deviations; all polytopes and points", "why_tests_cant": "tests try a grid of points inside", "anchors": ["sunscreen_math/src/security.rs lwe_security_level_to_std lwe_std_to_security_level", "sunscreen_math/src/geometry.rs"]}
{"id": "C120", "title": "Running a mux circuit on plain bits", "statement": "forward_traverse runs its callback on every node of an acyclic graph exactly once, each node after all its predecessors. test_mux_circuit given one bit per input variable returns, for every output of the circuit, in order, the bit the circuit computes, and refuses any other number of inputs.", "quantifier": "all acyclic graphs and callbacks; all well-formed mux circuits and inputs", "why_tests_cant": "all graphs and all node numberings", "anchors": ["mux_circuits/src/graph_ops.rs traverse forward_traverse", "mux_circuits/src/lib.rs test_mux_circuit get_mux_inputs"]}
{"id": "C121", "title": "Optimised diagram circuits: always built, minimal, and equal to the diagrams", "statement": "For every non-empty list of ordered binary decision diagrams over the same variables, building the circuit and optimising it succeeds; the result is well formed, no two of its muxes have the same operands, output j is the function of diagram j, and running the circuit (before or after optimisation) on one bit per variable returns the values of the diagrams in the given order.", "quantifier": "all lists of well-formed ordered diagrams, all inputs", "why_tests_cant": "the optimiser aborts on some graphs; that it never does on circuits built from diagrams is about all diagrams", "anchors": ["mux_circuits/src/lib.rs MuxCircuit::from optimize test_mux_circuit", "mux_circuits/src/opt.rs common_subexpression_elimination"]}
{"id": "C122", "title": "The high-level TFHE pipelines return what they document", "statement": "Through the high-level API, which allocates every buffer itself: encrypting under an LWE secret key and returning the randomness gives a ciphertext whose phase is the encoded message plus exactly the returned error; decryption with carry bits returns the message modulo 2^p for p + carry < 64 and is plain decryption for carry 0; trivial LWE and GLWE ciphertexts decrypt under every key; public-key encryption, key switching, GLWE encryption and sample extraction, and GGSW encryption round trip; cmux and glev_cmux select; a programmable bootstrap followed by a key switch returns f(m) under the original key with noise independent of the input's; circuit bootstrapping a bit yields a selector that selects.", "quantifier": "all messages, keys, randomness and parameters within the stated noise bounds, every machine and build profile, every FFT implementation of the stated accuracy", "why_tests_cant": "keys, masks and noise range over 2^64 values per coefficient; the pipelines compose rounding of several layers", "anchors": ["sunscreen_tfhe/src/high_level.rs"]}
{"id": "C123", "title": "Goldilocks field arithmetic is arithmetic modulo p", "statement": "p = 2^64 - 2^32 + 1 is prime. Every computation with Fg values (new, +, -, *, mad, negation, unreduced sums with reduce, pow, inverse, roots) succeeds in every build profile and is right modulo p. Products, powers and inverses are fully reduced whatever their operands, and so is every computation without negation and without new(p), so that equality and the zero test are right there. x * x.inverse() = 1 for x not zero; the inverse of 0 is 0.", "quantifier": "all computations over all u64 constants and exponents", "why_tests_cant": "the carries and borrows that need correction are rare among 2^128 operand pairs; that every nonzero value is invertible needs the modulus to be prime", "anchors": ["sunscreen_tfhe/src/math/goldilocks_field.rs", "sunscreen_tfhe/src/math/mod.rs Pow::pow"]}
{"id": "C124", "title": "Roots of unity are primitive and the NTT tables define an invertible transform", "statement": "For n = 2^k, k <= 32, nth_root_of_unity(n) is a primitive n-th root of unity; other n are refused unless they are larger powers of two, for which no such root exists and 1 is returned. NaiveNtt::new(n) builds tables whose forward and inverse transforms, scaled by n_inv, are inverse to each other on every vector, and under which cyclic convolution becomes pointwise multiplication.", "quantifier": "all sizes, vectors and profiles", "why_tests_cant": "the test only checks w^n = 1 for 15 sizes, which also holds of 1; orthogonality ranges over all pairs of indices", "anchors": ["sunscreen_tfhe/src/math/goldilocks_field.rs nth_root_of_unity", "sunscreen_tfhe/src/math/fft/cyclic/mod.rs NaiveNtt::new"]}
{"id": "C125", "title": "Graph transform lists apply exactly what was pushed", "statement": "GraphTransforms::apply on a StableGraph: a list of AddNode/AddEdge transforms whose references are nodes of the graph or deferred indices (as returned by push) of earlier AddNodes always applies; it returns the added nodes in order, all new and distinct, each with its weight, leaves every other node alone, and the edges afterwards are the old ones plus exactly the requested ones with each deferred index standing for its node. A deferred index that is not an earlier AddNode, a RemoveEdge without such an edge and an AddEdge between missing nodes panic; RemoveNode removes the node and the edges touching it, and nothing else.", "quantifier": "all node and edge types, all well-formed graphs (with or without vacated slots), all transform lists", "why_tests_cant": "Lists are unbounded and mix graph and deferred references; tests exercise a few of them, and the reuse of node numbers only shows up after removals.", "anchors": ["mux_circuits/src/opt.rs: GraphTransforms::push, materialize_index, apply, Transform, TransformNodeIndex"]}
{"id": "C126", "title": "forward_traverse_mut visits every node once in topological order while the graph is rewritten", "statement": "If the callback of forward_traverse_mut keeps to the documented mutations (delete the current node, insert nodes after it, add nodes without dependencies), then the callback runs exactly once for every node present at the start or at the end, each after all its predecessors; a callback that adds no nodes always lets the traversal end.", "quantifier": "all graphs, all callbacks (functions of everything they have seen), all numbers of steps", "why_tests_cant": "The graph changes under the traversal; whether a node is missed depends on the whole history of deletions and insertions.", "anchors": ["mux_circuits/src/opt.rs: forward_traverse_mut, traverse"]}
{"id": "C127", "title": "Any number of calls can be made on one memory object", "statement": "A function call returns the stack space it used, so that the same program can be called on the same Memory again and again; if one call succeeds, so does every later one with the same arguments.", "quantifier": "every memory, every sequence of calls of any signatures, interleaved with any stores, host writes and allocations", "why_tests_cant": "the effect of one call is a few bytes; only the whole history of calls on one memory shows the exhaustion (a default stack ends after 1024 of the smallest calls)", "anchors": ["parasol_cpu/src/memory/mod.rs: try_push_arg_onto_stack, stack_ptr", "parasol_cpu/src/proc/fhe_processor.rs: set_up_function_call, run_program_with_options"]}
{"id": "C128", "title": "The stack has the configured size and overflowing it is reported", "statement": "A memory built with a stack top and size offers the documented number of bytes (the size, rounded up to a multiple of the page size); a call whose frame does not fit is refused with an access violation and never overwrites other data.", "quantifier": "every stack top and size, every call signature, every memory layout around the stack", "why_tests_cant": "depends on the residues of top and size modulo the page size and on what is mapped next to the stack", "anchors": ["parasol_cpu/src/memory/mod.rs: Memory::new, MemoryConfigBuilder::stack_size, try_push_arg_onto_stack, try_allocate_at", "parasol_cpu/src/proc/fhe_processor.rs: set_up_function_call"]}
{"id": "C129", "title": "Public functional key switching through the FFT applies the map", "statement": "A public functional key switch with any map that writes every coefficient returns, through the floating-point FFT, an encryption of F of the messages, whatever the output ciphertext and scratch space held; its only difference from exact integer arithmetic is a bounded error per coefficient.", "quantifier": "every degree 16..4096 (2.. on machines without x86), word size, radix, key, list of inputs, map, scratch contents and build profile, and both multiply-add kernels", "why_tests_cant": "tests use one degree and a few inputs; rounding errors depend on all key and ciphertext values", "anchors": ["sunscreen_tfhe/src/ops/keyswitch/public_functional_keyswitch.rs: public_functional_keyswitch, generate_public_functional_keyswitch_key"]}
{"id": "C130", "title": "Circuit bootstrapping via private functional key switching works through the FFT", "statement": "Circuit bootstrapping through private functional key switching with a bootstrap key in Fourier form turns an encryption of a bit into a GGSW ciphertext under another key which, transformed, selects the right ciphertext in a CMUX through the FFT.", "quantifier": "every pair of degrees, all keys and randomness within the noise bounds, every scratch content, bit and pair of ciphertexts", "why_tests_cant": "tests run one parameter set with random keys; the claim covers all keys, noise values and rounding errors", "anchors": ["sunscreen_tfhe/src/ops/bootstrapping/circuit_bootstrapping.rs: circuit_bootstrap_via_pfks", "sunscreen_tfhe/src/ops/fft_ops.rs: cmux"]}
{"id": "C131", "title": "Compiled mux circuits compute their function on ciphertexts, with noise bounded by their depth", "statement": "Compiling the decision diagrams of any multi-output boolean function, with or without optimisation, and inserting the result into an FHE circuit behind one circuit bootstrap per input bit, gives a circuit whose execution on encrypted bits yields encryptions that decrypt to the function's value; the noise of every output is at most the number of variables times the noise of one CMUX, whatever the circuit. Only the parameters and the number of variables have to be checked.", "quantifier": "every boolean function and its diagrams, every parameter set with enough margin, all keys, randomness, scratch contents, input ciphertexts and evaluation orders, and both multiply-add kernels", "why_tests_cant": "tests run a few circuits with random keys and one parameter set; noise growth is a statement about all circuits, keys and rounding errors at once", "anchors": ["mux_circuits/src/lib.rs: MuxCircuit::from, optimize", "parasol_runtime/src/fhe_circuit.rs: insert_mux_circuit_and_connect_inputs", "parasol_runtime/src/circuit_processor/processor.rs", "parasol_runtime/src/ops: Evaluation"]}
{"id": "C132", "title": "Encrypted programs of any length compute what their instructions document", "statement": "A straight-line program of encrypted additions, subtractions, AND, OR and comparisons runs to its end and every register then decrypts to the value that the documented effect of the instructions gives, however long the program is: the noise of the registers does not depend on the program.", "quantifier": "every program, register width up to the bound fixed by the parameters, register contents, parameter set with enough margin, keys, randomness, scratch contents and evaluation order", "why_tests_cant": "tests run short programs on a few values; that noise does not accumulate over arbitrarily long programs needs an invariant", "anchors": ["parasol_cpu/src/proc/ops/add.rs: add", "parasol_cpu/src/proc/ops/sub.rs: sub", "parasol_cpu/src/proc/ops/and.rs: and", "parasol_cpu/src/proc/ops/or.rs: or", "parasol_cpu/src/proc/ops/comparisons.rs", "mux_circuits/src: add.rs, sub.rs, and.rs, or.rs, comparisons.rs"]}
{"id": "C133", "title": "Encrypted programs with shifts, XOR, NOT, selection, moves and casts: a static noise analysis that is sound", "statement": "For a straight-line program that also uses shifts by encrypted and plaintext amounts, exclusive or, complement, selection by an encrypted bit, moves, sign and zero extension and truncation, a check made before anything runs (widths fit; the analysed noise of whatever is bootstrapped is within the margin) guarantees that the program runs to its end, that every register holds the documented value with noise within the analysed bound, and that every register whose bound is below 2^62 decrypts to it.", "quantifier": "every program of any length, register contents and widths, initial noise, parameter set, keys, randomness, scratch contents and evaluation order", "why_tests_cant": "tests run single instructions or short programs; which ciphertexts share a handle and how noise adds up depends on the whole program", "anchors": ["parasol_cpu/src/proc/ops/bitshift.rs", "parasol_cpu/src/proc/ops/xor.rs: xor", "parasol_cpu/src/proc/ops/not.rs: not", "parasol_cpu/src/proc/ops/cmux.rs: cmux", "parasol_cpu/src/proc/ops/mov.rs", "parasol_cpu/src/proc/ops/casting.rs"]}
{"id": "C134", "title": "Encrypted programs with multiplication: the static noise analysis stays sound", "statement": "For straight-line programs that also multiply encrypted registers, a check made before anything runs (widths equal and not 33 or 65 to 67; the analysed noise of operands, and of partial products beyond 16 bits, within the bootstrapping margin) guarantees that the program runs to its end whatever order the pruning of the multiplication graph visits its nodes in, that every register holds the documented value (a product modulo 2^w) with noise within the analysed bound, and that every register whose bound is below 2^62 decrypts to it.", "quantifier": "every program of any length, register contents and widths, initial noise, parameter set, keys, randomness, scratch contents, evaluation and pruning order, and library of correct mux circuits", "why_tests_cant": "tests multiply a few values at a few widths; the graph depends on the recursion over the width, on pruning and on hash map order, and its noise on all circuits it is made of", "anchors": ["parasol_cpu/src/proc/ops/mul.rs: unsigned_multiply_cipher_cipher", "parasol_runtime/src/circuits/mul.rs: append_uint_multiply, mul_impl", "parasol_runtime/src/fhe_circuit.rs: prune"]}
{"id": "C135", "title": "Programs mixing plaintext and encrypted registers", "statement": "A straight-line program over registers that are plaintexts or ciphertexts, whose static check passes, runs to the end; every register then holds what the instructions are documented to compute, in the clear exactly when all operands of the instruction that wrote it were in the clear, and otherwise encrypted with noise within the bound of the static analysis, so that it decrypts; plaintext operands are encrypted trivially on the way. The numbers do not depend on which of the inputs were encrypted.", "quantifier": "all programs, all plaintext and encrypted inputs, all keys, parameters, schedules and pruning orders that meet the hypotheses", "why_tests_cant": "the choices of branch, the values, the noise and the lengths of programs are unbounded", "anchors": ["parasol_cpu/src/proc/mod.rs: register_to_l1glwe_by_trivial_lift, check_register_width", "parasol_cpu/src/proc/ops/mod.rs: trivially_encrypt_value_l1glwe", "parasol_cpu/src/proc/ops/mul.rs: multiply_cipher_plain", "parasol_cpu/src/proc/ops/bitshift.rs: shift_operation", "parasol_cpu/src/proc/ops/cmux.rs: cmux"]}
{"id": "C136", "title": "Encrypted data never reaches a plaintext register", "statement": "Two runs of the same program from states with the same plaintext registers end with the same plaintext registers and the same registers in the clear, whatever the encrypted registers hold and whatever the keys, parameters and schedules are: what the processor shows in the clear is a function of what it was given in the clear.", "quantifier": "all programs, all pairs of runs, all contents of encrypted registers, all keys", "why_tests_cant": "a property of pairs of executions over all secrets", "anchors": ["parasol_cpu/src/proc/ops/*.rs: the plaintext branches", "parasol_cpu/src/proc/mod.rs: Register"]}
{"id": "C137", "title": "Encrypted programs with carries compute multi-word arithmetic", "statement": "A program of encrypted instructions, addition with carry and subtraction with borrow included, whose static noise check passes runs to the end, and the owner of the key reads in the two destination registers the w-bit sum (difference) of the operands and the carry (borrow) in, and the carry (borrow) out; giving the carry of one instruction to the next adds and subtracts numbers of twice the width, and a chain of any length numbers of that many limbs.", "quantifier": "all programs, operand values, widths 1 to 128, carries, keys, admissible randomness and pruning orders", "why_tests_cant": "unbounded programs, all values and all keys", "anchors": ["parasol_cpu/src/proc/ops/add.rs: addc", "parasol_cpu/src/proc/ops/sub.rs: subb", "parasol_runtime/src/circuits/add.rs: ripple_carry_adder", "parasol_runtime/src/circuits/sub.rs: full_subtractor"]}
