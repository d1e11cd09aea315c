{
 "claims": [
  {
   "property": "C01",
   "status": "proved",
   "theorems": [
    "memory_read_last_write",
    "memory_store_frame",
    "memory_untouched_kept"
   ],
   "note": ""
  },
  {
   "property": "C02",
   "status": "proved",
   "theorems": [
    "memory_access",
    "memory_mapping_permanent",
    "null_page_never_allocated"
   ],
   "note": ""
  },
  {
   "property": "C03",
   "status": "partial",
   "theorems": [
    "allocation_fresh",
    "allocations_never_overlap",
    "allocation_fails_only_when_full",
    "allocation_huge_refuted"
   ],
   "note": "Proved for all requests up to 0xFFFFF000 bytes. Larger requests are refuted: a debug build aborts, a release build returns 0x1000 having mapped nothing."
  },
  {
   "property": "C04",
   "status": "partial",
   "theorems": [
    "typed_write_partial",
    "typed_write_boundary_refuted",
    "typed_write_misaligned",
    "typed_allocate",
    "typed_allocate_pages_refuted"
   ],
   "note": "The code checks one byte too many: a typed write whose range ends exactly at the end of the mapped area is refused, and a typed allocation of a whole number of pages fails unless the next page happens to be mapped. Proved when the following byte is mapped too."
  },
  {
   "property": "C05",
   "status": "proved",
   "theorems": [
    "word_roundtrip",
    "word_extension",
    "word_accepted_or_rejected"
   ],
   "note": ""
  },
  {
   "property": "C06",
   "status": "proved",
   "theorems": [
    "pointer_arithmetic_exact"
   ],
   "note": ""
  },
  {
   "property": "C07",
   "status": "partial",
   "theorems": [
    "call_frame_layout_partial",
    "call_frame_layout_reachable",
    "call_layout_disjoint",
    "call_frame_align32_refuted",
    "call_frame_misaligned_refuted"
   ],
   "note": "Proved from every 16-aligned stack pointer, and every stack pointer reachable by any session from a memory with a 16-aligned stack end is one. From any other stack pointer the claim is false (refuted: a caller byte is overwritten and the frame is misaligned), and alignment 32 (256-bit encrypted integers) overwrites the caller's data: refuted."
  },
  {
   "property": "C08",
   "status": "partial",
   "theorems": [
    "push_partial",
    "push_misaligned_refuted"
   ],
   "note": "Proved from an aligned stack pointer; false otherwise (refuted): the pointer stays misaligned and the first previously pushed byte is overwritten."
  },
  {
   "property": "C09",
   "status": "proved",
   "theorems": [
    "instruction_roundtrip",
    "instruction_layout",
    "opcodes_documented"
   ],
   "note": ""
  },
  {
   "property": "C10",
   "status": "proved",
   "theorems": [
    "instruction_injective",
    "unknown_opcode_rejected",
    "decoded_is_well_formed"
   ],
   "note": ""
  },
  {
   "property": "C11",
   "status": "partial",
   "theorems": [
    "decode_total_partial",
    "decode_aborts_refuted"
   ],
   "note": "The decoder aborts (assert_eq) on a known opcode with bits set above the instruction's fields: refuted; exact characterisation of when it accepts proved."
  },
  {
   "property": "C12",
   "status": "partial",
   "theorems": [
    "plaintext_binop_partial",
    "plaintext_128_partial",
    "plaintext_128_refuted",
    "neg_partial",
    "neg_encrypted_refuted",
    "add_carry_partial",
    "sub_borrow_partial"
   ],
   "note": "Proved for widths 1..127 in both build profiles; at width 128 only mul is right: add/sub/neg abort a debug build and return 0 in release (refuted)."
  },
  {
   "property": "C13",
   "status": "partial",
   "theorems": [
    "plaintext_binop_partial",
    "plaintext_logic_bitwise",
    "not_bitwise_partial",
    "plaintext_128_refuted"
   ],
   "note": "Proved for widths 1..127; width 128 refuted (mask computation overflows)."
  },
  {
   "property": "C14",
   "status": "partial",
   "theorems": [
    "plaintext_binop_partial",
    "plaintext_128_partial",
    "signed_compare_128_refuted"
   ],
   "note": "Proved for widths 1..127, and at 128 for equality and unsigned order; signed order at 128 aborts a debug build (refuted)."
  },
  {
   "property": "C15",
   "status": "partial",
   "theorems": [
    "plaintext_shift_partial",
    "plaintext_shift_fits_refuted",
    "plaintext_shift_then_compare_refuted",
    "plaintext_shift_big_refuted"
   ],
   "note": "Values are right modulo 2^w for amounts up to the width; shl that shifts bits out and shra of negative values leave bits above the width (refuted, and characterised exactly); amounts >= 128 abort a debug build."
  },
  {
   "property": "C16",
   "status": "partial",
   "theorems": [
    "cast_trunc_partial",
    "cast_zext",
    "cast_sext_partial",
    "cast_wrong_direction",
    "cast_128_refuted"
   ],
   "note": "Proved for plaintext and encrypted registers except plaintext results of width 128 (refuted)."
  },
  {
   "property": "C17",
   "status": "proved",
   "theorems": [
    "width_mismatch_is_error",
    "unsupported_width_is_error",
    "carry_width_is_error"
   ],
   "note": "Every checked instruction; an error result carries no register value, so nothing is written."
  },
  {
   "property": "C18",
   "status": "proved",
   "theorems": [
    "adder_adds"
   ],
   "note": "All widths, with or without carry-in."
  },
  {
   "property": "C19",
   "status": "proved",
   "theorems": [
    "subtractor_subtracts"
   ],
   "note": "All widths, with or without borrow-in, including the borrow out."
  },
  {
   "property": "C20",
   "status": "proved",
   "theorems": [
    "comparison_unsigned",
    "comparison_signed",
    "comparison_equal"
   ],
   "note": "All widths."
  },
  {
   "property": "C21",
   "status": "proved",
   "theorems": [
    "shift_left_logical",
    "shift_right_logical",
    "shift_right_arithmetic",
    "rotate_left_circuit",
    "rotate_right_circuit",
    "shift_narrow_amount_panics"
   ],
   "note": "All widths; the amount must have at least ceil(log2 width) bits (otherwise the builder aborts, also proved); rotations require a power-of-two width as the builder asserts."
  },
  {
   "property": "C22",
   "status": "proved",
   "theorems": [
    "negator_negates"
   ],
   "note": "All widths."
  },
  {
   "property": "C23",
   "status": "proved",
   "theorems": [
    "multiplier_multiplies"
   ],
   "note": "All pairs of widths; the prebuilt 8/16/32-bit circuits loaded from files are assumed equal in function to the generated ones."
  },
  {
   "property": "C24",
   "status": "partial",
   "theorems": [
    "wide_multiply_value",
    "wide_multiply_equal_widths_partial",
    "wide_multiply_machine_widths",
    "wide_multiply_total_refuted",
    "wide_multiply_mixed_width_panics"
   ],
   "note": "Value exact whenever it returns; totality is false (33-bit operands abort) - exact set of aborting equal widths proved."
  },
  {
   "property": "C25",
   "status": "partial",
   "theorems": [
    "signed_multiply_partial",
    "signed_multiply_value"
   ],
   "note": "Exact for every width at which the unsigned multiplier returns; other widths abort."
  },
  {
   "property": "C26",
   "status": "proved",
   "theorems": [
    "from_bdds_computes",
    "circuit_value_unique",
    "circuit_value_exists"
   ],
   "note": "Diagrams as lists of (variable, low, high) records; the byte parsing of the BDD library's serialisation is not modelled."
  },
  {
   "property": "C27",
   "status": "partial",
   "theorems": [
    "optimize_preserves_values_partial",
    "optimize_always_finishes_refuted",
    "optimize_bdds"
   ],
   "note": "Values are preserved whenever optimisation finishes; it panics on some well-formed circuits (two copies of mux(y,y,x) feeding one mux), but on every circuit built from ordered diagrams it finishes (optimize_bdds, C121)."
  },
  {
   "property": "C28",
   "status": "proved",
   "theorems": [
    "insert_mux_computes",
    "diagram_circuits_insertable",
    "diagrams_on_ciphertexts",
    "insert_mux_any_circuit_refuted"
   ],
   "note": "Proved for every circuit of the shape decision diagrams give (and those circuits are shown to have it), end to end from diagrams to written output ciphertexts. For circuits with a wire straight from a variable to an output the insertion aborts (refuted)."
  },
  {
   "property": "C29",
   "status": "proved",
   "theorems": [
    "prune_keeps_ancestors",
    "prune_preserves_values"
   ],
   "note": "For every iteration order of the hash map."
  },
  {
   "property": "C30",
   "status": "proved",
   "theorems": [
    "conversion_preserves_bit"
   ],
   "note": "All 25 type pairs, any graph. For GLWE the bit is the constant coefficient."
  },
  {
   "property": "C31",
   "status": "partial",
   "theorems": [
    "handles_survive_partial",
    "handles_survive_refuted"
   ],
   "note": "Every node keeps its value under any sequence of calls except mul; refuted for mul: it rebuilds the circuit, so handles and the cached constants become stale (a program asking for the constant 1 after mul outputs 0)."
  },
  {
   "property": "C32",
   "status": "proved",
   "theorems": [
    "submission_never_aborts",
    "every_node_submitted",
    "tasks_distinct",
    "tasks_run_at_most_once",
    "tasks_run_exactly_once",
    "tasks_run_after_inputs"
   ],
   "note": "Transition system of dispatcher and pool threads; every schedule, any number of circuits, any flow-control length."
  },
  {
   "property": "C33",
   "status": "proved",
   "theorems": [
    "success_means_correct",
    "success_iff_meaningful",
    "failure_is_justified",
    "schedule_independent",
    "other_ciphertexts_unchanged",
    "aliased_circuit_schedule_dependent_refuted"
   ],
   "note": "Needs the submitted circuits to use shared ciphertexts exclusively (no ciphertext both read and written); aliased_circuit_schedule_dependent_refuted shows the result otherwise depends on the schedule. Memory is sequentially consistent in the model."
  },
  {
   "property": "C34",
   "status": "proved",
   "theorems": [
    "callback_at_most_once",
    "callback_after_all_tasks",
    "callback_fires",
    "first_error_kept"
   ],
   "note": ""
  },
  {
   "property": "C35",
   "status": "proved",
   "theorems": [
    "flow_control_bounded",
    "never_deadlocks",
    "every_schedule_ends",
    "token_return_never_blocks",
    "zero_flow_control_refuted"
   ],
   "note": "For N >= 1 as stated; zero_flow_control_refuted shows that length 0 hangs."
  },
  {
   "property": "C36",
   "status": "partial",
   "theorems": [
    "program_order_partial",
    "program_order_refuted"
   ],
   "note": "False as stated: a straight-line program that overwrites a cell holding a pending encrypted result with a pointer, loads the pointer back and stores through it returns a different value under some schedules (program_order_refuted). Proved for every run in which no pending result was consulted; C75 gives a condition on programs."
  },
  {
   "property": "C37",
   "status": "partial",
   "theorems": [
    "branch_condition_partial",
    "branch_on_ciphertext_reported_partial",
    "branch_condition_refuted",
    "branch_on_ciphertext_refuted"
   ],
   "note": "False as stated: a branch tests whatever its condition register holds at dispatch, so it can use a stale default value (wrong result) or silently treat a pending encrypted value as zero. Proved for runs without such a read."
  },
  {
   "property": "C38",
   "status": "partial",
   "theorems": [
    "gas_limit_partial",
    "gas_limit_refuses",
    "gas_limit_refuted"
   ],
   "note": "False as stated: the limit is compared with the gas of each instruction alone. Proved: the per-instruction bound, the refusal, and that the reported total is the sum modulo 2^32."
  },
  {
   "property": "C39",
   "status": "partial",
   "theorems": [
    "run_never_blocks_partial",
    "fault_ends_run_partial",
    "bad_address_always_hangs",
    "fault_reported_refuted"
   ],
   "note": "False as stated: a load or store whose address cannot be computed at dispatch (unaligned, overflowing, encrypted) makes the run hang forever. Proved: no other deadlock, and every other fault ends the run."
  },
  {
   "property": "C40",
   "status": "proved",
   "theorems": [
    "first_fault_wins"
   ],
   "note": ""
  },
  {
   "property": "C41",
   "status": "partial",
   "theorems": [
    "borrow_exclusion_partial",
    "borrow_outcome",
    "borrowed_value_stable_partial",
    "borrow_exclusion_refuted"
   ],
   "note": "False as stated: a borrow refused because of a live mutable borrow leaves the counter incremented, after which a second mutable borrow is granted (borrow_exclusion_refuted). Proved for all interleavings in which no borrow was refused in that way."
  },
  {
   "property": "C42",
   "status": "proved",
   "theorems": [
    "spinlock_exclusion",
    "spinlock_acquires_when_free",
    "spinlock_only_holder_writes",
    "spinlock_kept_forever"
   ],
   "note": ""
  },
  {
   "property": "C43",
   "status": "partial",
   "theorems": [
    "int_round_trip_partial",
    "decryption_reads_bits",
    "int_round_trip_refuted",
    "packed_trivial_checks_range_refuted"
   ],
   "note": "Proved for unsigned widths up to 128 and signed widths 1..127 (128 in release builds). False elsewhere: Int<128> aborts on encryption in debug builds, UInt<256> refuses every nonzero value (int_round_trip_refuted)."
  },
  {
   "property": "C44",
   "status": "proved",
   "theorems": [
    "pack_places_bits",
    "unpack_inverts_pack",
    "packed_round_trip"
   ],
   "note": "Graph-level pack/unpack over the ideal ciphertexts; pack aborts exactly for 0 or more than degree bits. A packed integer of exactly degree bits is built but cannot be decrypted (see packed round trip theorems in Props_FluentInt)."
  },
  {
   "property": "C45",
   "status": "partial",
   "theorems": [
    "resize_unsigned_partial",
    "resize_signed_partial",
    "resize_refuted"
   ],
   "note": "Holds for the types with constants and for at least one bit; refuted for level-1 LWE and GLEV (unsigned resize always aborts) and for signed resize to 0 bits (debug abort, release gains a bit)."
  },
  {
   "property": "C46",
   "status": "partial",
   "theorems": [
    "compare_unsigned_partial",
    "compare_signed_partial",
    "equality_partial",
    "compare_mixed_signed_refuted"
   ],
   "note": "Unsigned of any widths and signed of equal widths; refuted for signed of different widths (the shorter is zero-extended)."
  },
  {
   "property": "C47",
   "status": "partial",
   "theorems": [
    "deserialised_object_valid_partial",
    "deserialise_inverts_serialise",
    "deserialised_object_valid_refuted"
   ],
   "note": "No bytes abort the reader and all ciphertexts have the right size; but an object with fewer than N bits or a nonsensical packed length is accepted (deserialised_object_valid_refuted)."
  },
  {
   "property": "C48",
   "status": "partial",
   "theorems": [
    "decode_encode_noise",
    "decode_encode_message",
    "decode_error_at_bound",
    "decode_wide_refuted"
   ],
   "note": "Proved for message lengths 1..31 bits with the tight bound. The full claim (every p < w) is refuted: for u64, decode uses a u32 mask, so p from 32 to 63 panics (debug) or loses bits (release)."
  },
  {
   "property": "C49",
   "status": "partial",
   "theorems": [
    "scalar_decomposition",
    "poly_decomposition",
    "exhausted_iterator_keeps_buffer",
    "full_width_radix_refuted"
   ],
   "note": "Proved for all log*count < word size, scalar and polynomial iterators. Parameters with log*count = word size pass assert_valid but abort (refuted)."
  },
  {
   "property": "C50",
   "status": "proved",
   "theorems": [
    "lwe_encrypt_phase",
    "lwe_decrypt_encrypt",
    "lwe_trivial_decrypts"
   ],
   "note": "All keys, masks, dimensions, both word sizes and profiles; message length 1..31 bits (see C48)."
  },
  {
   "property": "C51",
   "status": "partial",
   "theorems": [
    "lwe_add_phase",
    "lwe_sub_phase",
    "lwe_scalar_mad_phase",
    "lwe_neg_phase",
    "lwe_rotate_phase",
    "lwe_dimension_mismatch",
    "lwe_add_decrypts",
    "glwe_add_phase",
    "glwe_sub_phase",
    "glwe_add_assign_phase",
    "glwe_negate_phase",
    "glwe_poly_mad_phase",
    "glwe_scalar_mad_phase",
    "glwe_rotate_phase",
    "glwe_trivial_phase"
   ],
   "note": "Proved for every operation; GLWE add/sub only on the machines and builds of add_exact/sub_exact, because the property is false elsewhere (C90). Scalar multiply-adds need smad_exact (see C111)."
  },
  {
   "property": "C52",
   "status": "partial",
   "theorems": [
    "keyswitch_key_correct",
    "keyswitch_phase",
    "keyswitch_decrypts",
    "keyswitch_full_width_refuted",
    "keyswitch_keygen_uniform_key_refuted"
   ],
   "note": "Worst-case noise bound for every key, ciphertext and log*count < w; log*count = w aborts although accepted as valid, and key generation aborts in debug builds for key coefficients >= 2^log (refuted theorems)."
  },
  {
   "property": "C53",
   "status": "proved",
   "theorems": [
    "sample_extract_phase",
    "sample_extract_decrypts"
   ],
   "note": ""
  },
  {
   "property": "C54",
   "status": "partial",
   "theorems": [
    "glwe_encrypt_phase",
    "glwe_decrypt_phase",
    "glwe_decode_noise",
    "glwe_decrypt_encrypt",
    "glwe_encrypt_reused_buffer_refuted"
   ],
   "note": "Holds for fresh buffers (what the key's own methods use); with a reused buffer the old body is added to the message, so the property as stated is false (refuted theorem). Decoding needs p < 32 (C48)."
  },
  {
   "property": "C55",
   "status": "proved",
   "theorems": [
    "poly_mad_negacyclic",
    "poly_mad_shape",
    "poly_mul_ring",
    "poly_rotation",
    "rotation_is_multiplication",
    "rotation_group"
   ],
   "note": "The integer (schoolbook) multiplication and rotation; the f64 FFT path is not modelled bit-for-bit."
  },
  {
   "property": "C56",
   "status": "proved",
   "theorems": [
    "otp_recryption",
    "otp_recrypted_integer",
    "otp_wrong_length_refused"
   ],
   "note": "Message level: addition of the pad is addition of bits per coefficient modulo 2 (noise-free torus with one plaintext bit)."
  },
  {
   "property": "C57",
   "status": "proved",
   "theorems": [
    "barrett_multiplication_is_modular",
    "barrett_rejects_large_modulus",
    "barrett_negative_modulus_refuted"
   ],
   "note": "Proved for every modulus 2..2^(64n-1) and arbitrary n-limb operands (not only reduced ones). Finding: a negative modulus literal is accepted by the derive and its magnitude, which may exceed the supported bound, gives wrong products."
  },
  {
   "property": "C58",
   "status": "proved",
   "theorems": [
    "combinations_enumeration",
    "combinations_get_index",
    "combinations_at_index",
    "combinations_index_inverse"
   ],
   "note": "usize overflow not modelled."
  },
  {
   "property": "C59",
   "status": "proved",
   "theorems": [
    "triangular_pairs_enumerate",
    "triangular_pairs_members",
    "triangular_pairs_count"
   ],
   "note": ""
  },
  {
   "property": "C60",
   "status": "partial",
   "theorems": [
    "div_rounded_even_is_nearest_partial",
    "div_rounded_value_any",
    "div_rounded_refuted"
   ],
   "note": "Nearest for even divisors; false for odd divisors (1/3 gives 1) and for divisor 1 (x/1 gives x+1). The exact value for every divisor >= 2 is proved."
  },
  {
   "property": "C61",
   "status": "partial",
   "theorems": [
    "load_immediate_partial",
    "load_immediate_wide_refuted",
    "load_immediate_wide_release_refuted"
   ],
   "note": "Proved for widths 1..32; widths 33..128 abort a debug build, and release rejects in-range immediates at width 64."
  },
  {
   "property": "C62",
   "status": "partial",
   "theorems": [
    "encrypted_binop_partial",
    "encrypted_equals_plaintext",
    "encrypted_mul_gap_refuted",
    "encrypted_shift_plain_amount_partial",
    "encrypted_shift_big_refuted",
    "encrypted_shift_encrypted_amount_partial",
    "select_correct",
    "not_bitwise_partial",
    "add_carry_partial",
    "sub_borrow_partial",
    "cast_trunc_partial",
    "cast_zext",
    "cast_sext_partial"
   ],
   "note": "All instructions; exceptions proved: mul at widths 33, 65-67 aborts, a plaintext amount above the width aborts, encrypted neg aborts, rotation needs a power-of-two width."
  },
  {
   "property": "C63",
   "status": "partial",
   "theorems": [
    "load_returns_memory",
    "load_mixed_rejected",
    "load_store_rejected",
    "load_store_encrypted_pointer",
    "store_then_load",
    "store_then_load_same",
    "load_store_width12_refuted"
   ],
   "note": "Proved for widths 8, 16, 32, 64, 128. Widths that are not a multiple of 8 are accepted but lose bits: refuted."
  },
  {
   "property": "C64",
   "status": "partial",
   "theorems": [
    "primitive_roundtrip",
    "primitive_rejects",
    "encrypted_int_roundtrip",
    "encrypted_int_rejects_plaintext",
    "array_roundtrip_partial",
    "array_padding_refuted"
   ],
   "note": "Arrays proved when the element size is a multiple of its alignment; refuted otherwise."
  },
  {
   "property": "C65",
   "status": "proved",
   "theorems": [
    "program_fetched_as_written"
   ],
   "note": ""
  },
  {
   "property": "C66",
   "status": "proved",
   "theorems": [
    "elf_segments_loaded",
    "new_memory_zero"
   ],
   "note": ""
  },
  {
   "property": "C67",
   "status": "partial",
   "theorems": [
    "packed_allocations_disjoint_partial",
    "packed_release_refuted"
   ],
   "note": "Debug builds (checked arithmetic); in a release build the end-of-range addition wraps and a huge request is served: refuted."
  },
  {
   "property": "C68",
   "status": "proved",
   "theorems": [
    "malformed_operation_is_an_error",
    "input_order_irrelevant",
    "circuit_outcome_unique"
   ],
   "note": "Ideal ciphertexts; the two pseudo-operations Zero/One of type Lwe1 do not exist in the code."
  },
  {
   "property": "C69",
   "status": "partial",
   "theorems": [
    "gas_deterministic_partial",
    "gas_deterministic_refuted"
   ],
   "note": "False as stated: gas is computed from operands that may not have been produced yet (300002 or 200003 for the same program). Proved: it never exceeds the gas of program order."
  },
  {
   "property": "C70",
   "status": "proved",
   "theorems": [
    "insert_element_extends",
    "insert_element_onto",
    "insert_element_monotone"
   ],
   "note": ""
  },
  {
   "property": "C71",
   "status": "proved",
   "theorems": [
    "polynomial_add_coefficients",
    "polynomial_sub_coefficients",
    "polynomial_mul_coefficients",
    "polynomial_neg_scale_coefficients",
    "polynomial_evaluation",
    "polynomial_evaluation_homomorphism",
    "polynomial_degree_is_degree",
    "polynomial_division_monic",
    "polynomial_division_unique",
    "polynomial_division_nonmonic_refuted"
   ],
   "note": "Finding: the documented panic for a divisor that is not monic never happens."
  },
  {
   "property": "C72",
   "status": "partial",
   "theorems": [
    "polynomial_equality_complete_partial",
    "polynomial_equality_up_to_leading",
    "polynomial_equality_refuted"
   ],
   "note": "Equal polynomials compare equal; the converse is false: the leading coefficients are never compared (x == 2x)."
  },
  {
   "property": "C73",
   "status": "partial",
   "theorems": [
    "zq_from_u64_reduces",
    "zq_from_i64_correct_range",
    "zq_from_i64_refuted"
   ],
   "note": "u64 proved; i64 is wrong exactly below -q unless q divides 2^(64n)."
  },
  {
   "property": "C74",
   "status": "proved",
   "theorems": [
    "mulxn_moves_coefficients",
    "not_flips_constant_coefficient"
   ],
   "note": "On the ideal functionality of the gates (bits of the packed plaintext)."
  },
  {
   "property": "C75",
   "status": "proved",
   "theorems": [
    "direct_programs_run_in_program_order",
    "direct_programs_branch_correctly"
   ],
   "note": ""
  },
  {
   "property": "C76",
   "status": "partial",
   "theorems": [
    "fluent_arithmetic_partial",
    "fluent_arithmetic_refuted",
    "library_exists"
   ],
   "note": "Right operand at least as wide as the left (and: below 65536 bits); otherwise the call aborts. The mux circuit library is a hypothesis (lib_ok), met by shannon_lib."
  },
  {
   "property": "C77",
   "status": "partial",
   "theorems": [
    "fluent_multiply_partial",
    "mul_widths",
    "multiply_glev_refuted"
   ],
   "note": "Signed: all result types; unsigned: GLWE or at most 16 bits. Refuted: unsigned GLEV wider than 16 bits gives results without value; widths strictly between 16*2^d and 17*2^d abort."
  },
  {
   "property": "C78",
   "status": "partial",
   "theorems": [
    "fluent_plumbing_partial",
    "constants_refuted"
   ],
   "note": "All calls; constants of level-1 LWE and GLEV type always abort."
  },
  {
   "property": "C79",
   "status": "proved",
   "theorems": [
    "external_product_phase",
    "external_product_decrypts"
   ],
   "note": "Integer (non-FFT) external product; the FFT versions are C80."
  },
  {
   "property": "C80",
   "status": "proved",
   "theorems": [
    "cmux_correct",
    "cmux_overwrites",
    "glev_cmux_correct"
   ],
   "note": "FFT arithmetic is represented by an arbitrary bounded error ciphertext; debug AVX2 builds are C90."
  },
  {
   "property": "C81",
   "status": "proved",
   "theorems": [
    "lut_windows",
    "lut_refused"
   ],
   "note": ""
  },
  {
   "property": "C82",
   "status": "proved",
   "theorems": [
    "modulus_switch_rounds",
    "lwe_modulus_switch_phase"
   ],
   "note": ""
  },
  {
   "property": "C83",
   "status": "proved",
   "theorems": [
    "bootstrap_key_encrypts",
    "multi_function_bootstrap",
    "univariate_bootstrap"
   ],
   "note": "FFT arithmetic is represented by an arbitrary bounded error ciphertext."
  },
  {
   "property": "C84",
   "status": "partial",
   "theorems": [
    "glwe_keyswitch_phase",
    "glwe_keyswitch_key_correct",
    "glwe_keyswitch_debug_avx2_refuted"
   ],
   "note": "Proved on the machines of sub_exact; debug builds with AVX2 abort (refuted theorem)."
  },
  {
   "property": "C85",
   "status": "partial",
   "theorems": [
    "private_keyswitch_key_correct",
    "private_keyswitch_correct",
    "private_keyswitch_reuse_refuted",
    "private_keyswitch_full_radix_refuted"
   ],
   "note": "Key generation and the switch are correct into a fresh output for every additive Lipschitz map, with the stated noise. Not for a reused output: the old message is subtracted (refuted). A radix that fills the word passes validation and aborts in debug builds (refuted). Scalar multiply-adds need smad_exact (see C111)."
  },
  {
   "property": "C86",
   "status": "proved",
   "theorems": [
    "rlwe_public_phase",
    "rlwe_public_roundtrip"
   ],
   "note": ""
  },
  {
   "property": "C87",
   "status": "proved",
   "theorems": [
    "automorphism_key_correct",
    "trace_correct",
    "trace_end_to_end"
   ],
   "note": "FFT rounding is an explicit bounded error"
  },
  {
   "property": "C88",
   "status": "partial",
   "theorems": [
    "scheme_switch_key_correct",
    "scheme_switch_correct",
    "scheme_switch_fft_correct",
    "scheme_switch_fft_accumulates_refuted"
   ],
   "note": "scheme_switch overwrites its output; scheme_switch_fft is correct only into a zero output: anything already there is added (refuted). The FFT product of key polynomials, a parameter assumed exact here, is proved exact in C109_key_product_exact; the FFT form is proved in C108."
  },
  {
   "property": "C89",
   "status": "partial",
   "theorems": [
    "circuit_bootstrap_correct",
    "circuit_bootstrap_end_to_end",
    "circuit_bootstrap_reuse_refuted",
    "circuit_bootstrap_count_refused",
    "circuit_bootstrap_wide_radix_refuted"
   ],
   "note": "Holds into a zeroed output; a reused output is refuted (accumulates), as is acceptance of log*count >= w-1. The per-coefficient error parameter standing for FFT rounding is discharged in C108/C109; needs builds where AVX2 add/sub wrap (release)."
  },
  {
   "property": "C90",
   "status": "partial",
   "theorems": [
    "poly_add_exact",
    "poly_sub_exact",
    "poly_sub_debug_avx2_refuted",
    "poly_add_debug_avx2_refuted",
    "poly_sub_no_avx2_refuted"
   ],
   "note": "False as stated: 64-bit polynomials abort in debug builds with AVX2, and subtraction without AVX2 adds. Proved on all other machines."
  },
  {
   "property": "C91",
   "status": "proved",
   "theorems": [
    "glev_encrypt_correct",
    "ggsw_encrypt_correct",
    "ggsw_encrypt_refuses",
    "ggsw_decrypt_correct",
    "ggsw_decrypt_encrypt"
   ],
   "note": ""
  },
  {
   "property": "C92",
   "status": "proved",
   "theorems": [
    "bivariate_bootstrap"
   ],
   "note": "FFT arithmetic is represented by an arbitrary bounded error ciphertext."
  },
  {
   "property": "C93",
   "status": "proved",
   "theorems": [
    "blind_rotation_rotates"
   ],
   "note": "FFT arithmetic is represented by an arbitrary bounded error ciphertext."
  },
  {
   "property": "C94",
   "status": "partial",
   "theorems": [
    "pow_k_substitutes",
    "substitution_is_ring_hom",
    "pow_k_even_keeps_stale_refuted"
   ],
   "note": "proved for odd k; for even k (not ruled out by the documentation) odd-indexed outputs keep stale contents"
  },
  {
   "property": "C95",
   "status": "proved",
   "theorems": [
    "pow2_switch_rounds",
    "pow2_switch_phase",
    "pow2_switch_zero_refuted"
   ],
   "note": "n = 0 (degree 1) aborts a debug build"
  },
  {
   "property": "C96",
   "status": "proved",
   "theorems": [
    "triangular_pairs_complete",
    "linear_index_correct",
    "linear_index_injective",
    "linear_index_refuses"
   ],
   "note": ""
  },
  {
   "property": "C97",
   "status": "partial",
   "theorems": [
    "circuit_bootstrap_pfks_keys_correct",
    "circuit_bootstrap_pfks_correct",
    "circuit_bootstrap_pfks_end_to_end",
    "circuit_bootstrap_pfks_reuse_refuted",
    "circuit_bootstrap_pfks_count_refused"
   ],
   "note": "Correct end to end into a fresh output whatever the scratch buffers hold; a reused output has the old ciphertext subtracted (refuted). Floating-point FFT error is a bounded parameter. Scalar multiply-adds need smad_exact (see C111)."
  },
  {
   "property": "C98",
   "status": "partial",
   "theorems": [
    "public_keyswitch_key_correct",
    "public_keyswitch_correct",
    "public_keyswitch_stale_scratch_refuted"
   ],
   "note": "Correct for maps that write every coefficient. The polynomial handed to the map is documented as zero-initialised but is stale scratch memory: for the packing map the unused coefficients become (1 - sum s) times the stale contents (refuted)."
  },
  {
   "property": "C99",
   "status": "partial",
   "theorems": [
    "scratch_buffers_private",
    "scratch_never_refuses",
    "scratch_blocks",
    "scratch_zeroed_refuted"
   ],
   "note": "Proved for every history, except that fresh buffers are zeroed, which is false of the code (scratch_zeroed_refuted): reused buffers show stale data."
  },
  {
   "property": "C100",
   "status": "partial",
   "theorems": [
    "strided_iteration",
    "strided_iteration_refused",
    "strided_iteration_mut",
    "strided_iteration_mut_disjoint",
    "parallel_iteration",
    "parallel_iteration_mut",
    "strided_iteration_mut_empty_refuted",
    "iterator_length_refuted"
   ],
   "note": "Proved except for two false parts: a debug build aborts on creating a mutable iterator over an empty list, and the length a shared iterator reports does not decrease as elements are taken."
  },
  {
   "property": "C101",
   "status": "partial",
   "theorems": [
    "operation_on_ciphertexts",
    "circuit_on_ciphertexts",
    "decryption_correct",
    "processor_setup_correct",
    "circuit_end_to_end",
    "diagrams_end_to_end"
   ],
   "note": "Full statement for every parameter set meeting boot_margin (a worst-case bound), with the noise of every node bounded by an explicit static analysis. Missing: the shipped DEFAULT_128 set meets the margin only on average, so its correctness is probabilistic and outside the theorem; FFT rounding, a bounded error parameter here, is discharged in C110; debug builds on AVX2 and x86 without AVX2 are excluded (add_exact/sub_exact) because the code is wrong there (C90)."
  },
  {
   "property": "C102",
   "status": "partial",
   "theorems": [
    "encryption_correct",
    "public_encryption_correct",
    "public_glev_small_degree_refuted",
    "public_key_dimension_refused"
   ],
   "note": "Holds for all kinds and all randomness, except that public-key GLEV encryption aborts for degree < 16 (leftover dbg! slicing 16 coefficients, which also prints the plaintext); refuted for that case."
  },
  {
   "property": "C103",
   "status": "partial",
   "theorems": [
    "C103_fft_product_partial",
    "C103_fft_product_refuted",
    "C103_fft_domain",
    "C103_short_products"
   ],
   "note": "complete result of the computation proved for all inputs in exact arithmetic; the property as stated is false for one residue (refuted theorem). rustfft is assumed to compute the DFT it documents (exact_ext). Uses the axioms of the standard library's reals."
  },
  {
   "property": "C104",
   "status": "proved",
   "theorems": [
    "C104_fft_error",
    "C104_fft_exact_when_small",
    "C104_double_precision"
   ],
   "note": "accuracy of rustfft, libm sin_cos and num-complex powf(-1) are explicit hypotheses (record accurate); overflow of f64 to infinity is outside the model. Uses the axioms of the standard library's reals (and classic, through Flocq, for C104_double_precision)."
  },
  {
   "property": "C105",
   "status": "proved",
   "theorems": [
    "C105_two_operand",
    "C105_one_operand",
    "C105_casts",
    "C105_load_immediate",
    "C105_carry",
    "C105_shift_plain_amount",
    "C105_shift_encrypted_amount",
    "C105_select",
    "C105_load",
    "C105_store",
    "C105_control_flow",
    "C105_gas"
   ],
   "note": "operand ranges where single operations are wrong are excluded in the hypotheses and refuted elsewhere (C12-C17, C61-C63, C69)"
  },
  {
   "property": "C106",
   "status": "proved",
   "theorems": [
    "C106_cmux_fft_refines",
    "C106_cmux_fft_correct",
    "C106_glev_cmux_fft_refines",
    "C106_blind_rotation_fft_refines",
    "C106_bootstrap_fft_refines",
    "C106_default_error_bound"
   ],
   "note": "Floating-point arithmetic and rustfft enter as the accuracy contract of C104; exponent overflow of f64 is not modelled."
  },
  {
   "property": "C107",
   "status": "proved",
   "theorems": [
    "C107_univariate_bootstrap_fft",
    "C107_bivariate_bootstrap_fft"
   ],
   "note": "Worst-case noise: DEFAULT_128's own parameters exceed the worst-case budget (see C101), so the theorem applies to parameter sets whose bound fits; a concrete double-precision instance is given."
  },
  {
   "property": "C108",
   "status": "proved",
   "theorems": [
    "C108_keyswitch_fft_refines",
    "C108_trace_fft_refines",
    "C108_scheme_switch_fft_refines",
    "C108_circuit_bootstrap_fft_refines",
    "C108_circuit_bootstrap_fft_correct"
   ],
   "note": "For fresh (zero) outputs; reuse of an output is refuted in C89. Bounds are worst case."
  },
  {
   "property": "C109",
   "status": "proved",
   "theorems": [
    "C109_key_product_exact",
    "C109_circuit_bootstrap_fft_end_to_end"
   ],
   "note": "Concrete instance in double precision: C109_instance."
  },
  {
   "property": "C110",
   "status": "proved",
   "theorems": [
    "C110_operation_fft",
    "C110_operation_refused_fft",
    "C110_circuit_fft",
    "C110_decryption_fft",
    "C110_encryption_fft",
    "C110_setup_fft",
    "C110_circuit_end_to_end_fft",
    "C110_diagrams_end_to_end_fft"
   ],
   "note": "For every parameter set whose worst-case noise and FFT error fit the stated budgets (a double-precision instance is given: exf_end_to_end); DEFAULT_128 exceeds the worst case and is correct only on average (C101). Floating point and rustfft enter as the accuracy contract of C104, instantiated for IEEE double rounding; exponent overflow is not modelled."
  },
  {
   "property": "C111",
   "status": "partial",
   "theorems": [
    "complex_mad_x86_correct",
    "vector_scalar_mad_avx512_correct",
    "vector_scalar_mad_avx512_refuted",
    "small_scalar_mad_dispatch",
    "small_scalar_mad_exact_iff",
    "small_scalar_mad_debug_refuted",
    "glwe_scalar_mad_avx512_refuted",
    "private_keyswitch_avx512_refuted"
   ],
   "note": "Complex kernel: fully proved at instruction level. Scalar kernel: exact on exactly the machines and builds of smad_exact (iff theorem); false elsewhere (debug builds without AVX-512, degrees not a multiple of 16 with AVX-512, AVX512F without AVX512DQ), which is why the claim is partial."
  },
  {
   "property": "C112",
   "status": "proved",
   "theorems": [
    "deserialize_roundtrip",
    "deserialize_truncated",
    "deserialize_prefix",
    "public_key_codec",
    "glwe_codec",
    "public_pad_codec",
    "lwe_codec",
    "glev_codec",
    "ggsw_codec",
    "secret_key_codec",
    "secret_pad_codec",
    "compute_key_codec",
    "fft_key_codec",
    "generated_key_transport"
   ],
   "note": "Lengths are assumed to fit 64 bits (fits); sizes are not taken modulo 2^64. The entries of the Fourier keys are kept as raw words (any bits are a float)."
  },
  {
   "property": "C113",
   "status": "partial",
   "theorems": [
    "pad_decryption",
    "secret_key_not_binary_refuted",
    "secret_pad_not_binary_refuted"
   ],
   "note": "False as stated: only lengths are checked. A secret key with a coefficient of 2 or more in its LWE part is accepted and then aborts compute-key generation in every build; a pad word of 2^64-1 aborts a debug build. Proved: the exact result of pad decryption for bits (all builds) and for all words (release)."
  },
  {
   "property": "C114",
   "status": "proved",
   "theorems": [
    "lwe_public_encrypt_exact",
    "lwe_public_encrypt_decrypt",
    "lwe_public_encrypt_refused"
   ],
   "note": "Any message and randomness; noise bound explicit"
  },
  {
   "property": "C115",
   "status": "proved",
   "theorems": [
    "recryption_end_to_end"
   ],
   "note": "Key generation, pad, transport, recryption, decryption, pad removal"
  },
  {
   "property": "C116",
   "status": "partial",
   "theorems": [
    "uniform_torus_uniform",
    "binary_sample_uniform",
    "binary_polynomial_binary",
    "normal_torus_bounded",
    "normal_torus_nearest_partial",
    "lwe_sampled_error_decrypts",
    "normal_torus_wraps_refuted",
    "from_u64_most_significant_refuted"
   ],
   "note": "False as stated beyond |e0| = 1/2 on 64-bit words (saturates) and for the documented bit selection of from_u64; everything else proved"
  },
  {
   "property": "C117",
   "status": "partial",
   "theorems": [
    "normalized_torus_exact",
    "normalized_torus_accurate",
    "normalized_torus_one",
    "normalized_torus_below_one_refuted",
    "torus_distance_shortest",
    "switch_modulus_correct",
    "switch_modulus_larger"
   ],
   "note": "False only for the half-open range: exactly the last 1024 elements of the 64-bit torus are reported as 1"
  },
  {
   "property": "C118",
   "status": "proved",
   "theorems": [
    "running_statistics_exact",
    "running_statistics_double",
    "running_statistics_empty"
   ],
   "note": "Exact arithmetic, and range/sign invariants with every operation rounded; overflow to infinity not modelled"
  },
  {
   "property": "C119",
   "status": "partial",
   "theorems": [
    "level_to_std_domain",
    "level_to_std_documented_domain_refuted",
    "std_to_level_domain",
    "std_to_level_documented_dimension_refuted",
    "violations_complete",
    "polytope_convex"
   ],
   "note": "False as stated: documented arguments are refused; the fitted polynomials themselves are not modelled"
  },
  {
   "property": "C120",
   "status": "partial",
   "theorems": [
    "forward_traverse_topological",
    "test_mux_circuit_values_partial",
    "test_mux_circuit_refuses",
    "run_bdds",
    "test_mux_circuit_numbering_refuted",
    "test_mux_circuit_holes_refuted"
   ],
   "note": "The traversal is proved for all acyclic graphs. On circuits built from ordered diagrams the outputs come in order (run_bdds). In general they come in node order, not in output order, and a graph with removed nodes makes test_mux_circuit abort: both refuted with counterexamples."
  },
  {
   "property": "C121",
   "status": "proved",
   "theorems": [
    "optimize_bdds",
    "run_bdds"
   ],
   "note": "Diagrams as lists of records; the library that builds and serialises diagrams is not modelled, its ordering invariant is a hypothesis (bdd_ordered)."
  },
  {
   "property": "C122",
   "status": "proved",
   "theorems": [
    "C122_returned_randomness",
    "C122_carry_roundtrip",
    "C122_carry_zero",
    "C122_trivial_lwe",
    "C122_public_roundtrip",
    "C122_keyswitch",
    "C122_glwe_roundtrip_and_extract",
    "C122_trivial_glwe",
    "C122_trivial_glwe_refused",
    "C122_ggsw_roundtrip",
    "C122_cmux",
    "C122_glev_cmux",
    "C122_bootstrap_and_switch_back",
    "C122_circuit_bootstrap",
    "C122_transform_refuses"
   ],
   "note": "For all u64 parameters. The noise bounds are hypotheses on the drawn randomness (worst case); the FFT is any implementation within the stated error, and double precision is shown to meet it at degree 16 in the instances beside the theorems."
  },
  {
   "property": "C123",
   "status": "proved",
   "theorems": [
    "C123_prime",
    "C123_computations",
    "C123_reduced",
    "C123_zero_test",
    "C123_product_reduced",
    "C123_inverse",
    "C123_negated_zero_refuted",
    "C123_new_of_p_refuted"
   ],
   "note": "Full range of u64 constants. Finding: -0 and new(p) are the word p, which the crate's equality and zero test distinguish from 0 (C123_negated_zero_refuted, C123_new_of_p_refuted)."
  },
  {
   "property": "C124",
   "status": "proved",
   "theorems": [
    "C124_root_primitive",
    "C124_root_refused",
    "C124_root_too_large_refuted",
    "C124_ntt_tables",
    "C124_ntt_refused"
   ],
   "note": "NaiveNtt has only a constructor in the crate; the transform its tables define is spelled out in SpecGold.v. Finding: sizes 2^33 and above return 1 although no root exists (C124_root_too_large_refuted)."
  },
  {
   "property": "C125",
   "status": "partial",
   "theorems": [
    "C125_apply_builds",
    "C125_push_index",
    "C125_bad_deferred_index_panics",
    "C125_remove_edge",
    "C125_remove_node",
    "C125_apply_well_formed",
    "C125_deferred_index_reused_refuted"
   ],
   "note": "Proved for additive lists, single removals and bad references. That a deferred index always means the node of its own AddNode is false when the list removes that node and adds another (node numbers are reused): refuted."
  },
  {
   "property": "C126",
   "status": "partial",
   "theorems": [
    "C126_visits_everything_in_order",
    "C126_terminates",
    "C126_delete_current",
    "C126_insert_only",
    "C126_index_reuse_refuted"
   ],
   "note": "Proved for callbacks whose new nodes get numbers not used before, which is shown to hold for callbacks that only delete the current node or only insert. As documented (deleting and inserting mixed) the claim is false: a node inserted under the number of a deleted one is never visited; refuted."
  },
  {
   "property": "C127",
   "status": "partial",
   "theorems": [
    "stack_pointer_after_session",
    "calls_until_exhaustion",
    "default_stack_calls",
    "repeated_calls_exhaust_refuted"
   ],
   "note": "The claim is false: a call never returns its frame, so calls on one memory stop working after (stack size)/(frame size) calls; the exact number is proved."
  },
  {
   "property": "C128",
   "status": "partial",
   "theorems": [
    "stack_capacity_exact",
    "stack_size_rounding_refuted",
    "stack_overflow_silent_refuted"
   ],
   "note": "Exact outcome for every first call on a new memory. The documented rounding up of the size and the absence of silent overflow are refuted."
  },
  {
   "property": "C129",
   "status": "proved",
   "theorems": [
    "C129_public_keyswitch_fft_refines",
    "C129_public_keyswitch_fft_correct",
    "C129_public_keyswitch_fft_end_to_end"
   ],
   "note": "worst-case error bounds; map F must be Lipschitz for the end-to-end theorem"
  },
  {
   "property": "C130",
   "status": "proved",
   "theorems": [
    "C130_circuit_bootstrap_pfks_fft_refines",
    "C130_circuit_bootstrap_pfks_fft_end_to_end"
   ],
   "note": "into a fresh result (a reused one is refuted in C97's circuit_bootstrap_pfks_reuse_refuted); worst-case noise bounds"
  },
  {
   "property": "C131",
   "status": "proved",
   "theorems": [
    "C131_compile",
    "C131_diagrams_exist",
    "C131_noise",
    "C131_circuit_end_to_end"
   ],
   "note": "Any ordered decision diagrams with the function's values; the external BDD library itself is not modelled. Noise is a worst-case bound."
  },
  {
   "property": "C132",
   "status": "proved",
   "theorems": [
    "C132_program",
    "C132_program_end_to_end"
   ],
   "note": "Straight-line programs of ADD, SUB, AND, OR and comparisons on ciphertext registers, instructions one after the other; XOR (its noise grows with the program), MUL, shifts, one-operand, memory and branch instructions are not in these programs."
  },
  {
   "property": "C133",
   "status": "proved",
   "theorems": [
    "C133_program",
    "C133_program_end_to_end"
   ],
   "note": "Straight-line programs, instructions one after the other, registers of ciphertexts; NEG, MUL, memory and branch instructions and plaintext select or operands are not in these programs. CMUX and casts are those whose operands are encrypted."
  },
  {
   "property": "C134",
   "status": "proved",
   "theorems": [
    "C134_program",
    "C134_program_end_to_end",
    "C134_library"
   ],
   "note": "Programs of C133 plus encrypted multiplication (all widths at which it does not abort), for any library of correct mux circuits with a depth bound; concrete five-bit program in double precision. The multiplier circuits shipped as data files are represented by the library hypothesis; products with a plaintext operand are not in these programs."
  },
  {
   "property": "C135",
   "status": "proved",
   "theorems": [
    "C135_program",
    "C135_program_end_to_end",
    "C135_same_numbers"
   ],
   "note": "Programs of any length over registers that may be in the clear or encrypted: immediates, the two-operand instructions (multiplication included), shifts, selection, complement, moves and casts. The static check excludes what C01-C16 refute (plaintext width 128, unmasked plaintext shifts, multiplication at 33 and 65-67 bits). Example exm_program."
  },
  {
   "property": "C136",
   "status": "proved",
   "theorems": [
    "C136_no_leak"
   ],
   "note": "At the level of two runs of the model; example exm_program meets the premises for any two pairs of encrypted inputs."
  },
  {
   "property": "C137",
   "status": "proved",
   "theorems": [
    "C137_program",
    "C137_program_end_to_end",
    "C137_two_limbs",
    "C137_limbs"
   ],
   "note": "Programs of any length over all instructions of C134 plus encrypted addition with carry and subtraction with borrow at widths 1 to 128. C137_two_limbs, C137_limbs: chaining the carry register through any number of instructions gives the arithmetic of numbers with that many limbs. The two destinations of an instruction are different registers. Example exz_program."
  }
 ]
}