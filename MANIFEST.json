{
 "claims": [
  {
   "property": "C01",
   "status": "proved",
   "theorems": [
    "C01_idset"
   ],
   "note": "Programs of IDSet calls over numbered variables, any iteration orders."
  },
  {
   "property": "C02",
   "status": "proved",
   "theorems": [
    "C02_new",
    "C02_new_ntt",
    "C02_copy",
    "C02_drop_level",
    "C02_pad"
   ],
   "note": "sharing between a ciphertext and its copy is C03"
  },
  {
   "property": "C03",
   "status": "proved",
   "theorems": [
    "C03_copy_new",
    "C03_programs",
    "C03_decrypt"
   ],
   "note": "Heap.v models limbs, polynomials and the maps of ciphertexts as addressed cells. The first theorem is a frame theorem on arbitrary heaps; the second relates every program on objects to the value model used everywhere else, so that the value model loses no aliasing; the third covers Decrypt of both packages. The plaintext struct is an object with one component."
  },
  {
   "property": "C04",
   "status": "proved",
   "theorems": [
    "C04_secret_key_set",
    "C04_public_key_set",
    "C04_conjugation_key_set",
    "C04_relinearization_key_set",
    "C04_rotation_key_set"
   ],
   "note": "All five key sets."
  },
  {
   "property": "C05",
   "status": "proved",
   "theorems": [
    "C05_tables"
   ],
   "note": "All four tables of NewFastBasisExtender."
  },
  {
   "property": "C06",
   "status": "proved",
   "theorems": [
    "C06_modup"
   ],
   "note": "Both directions."
  },
  {
   "property": "C07",
   "status": "proved",
   "theorems": [
    "C07_exactness_refuted",
    "C07_documented_range_refuted",
    "C07_range"
   ],
   "note": "Witnesses against the documentation and the bound that holds."
  },
  {
   "property": "C08",
   "status": "proved",
   "theorems": [
    "C08_moddown_floor",
    "C08_rounding_refuted"
   ],
   "note": ""
  },
  {
   "property": "C09",
   "status": "proved",
   "theorems": [
    "C09_moddown_P",
    "C09_any_levels",
    "C09_unequal_levels_refuted"
   ],
   "note": "C09_any_levels gives the words written at any two levels, and the panic when the table has no row levelP."
  },
  {
   "property": "C10",
   "status": "proved",
   "theorems": [
    "C10_decomposition"
   ],
   "note": ""
  },
  {
   "property": "C11",
   "status": "proved",
   "theorems": [
    "C11_beta_is_ceiling",
    "C11_alpha_is_floor",
    "C11_crs_shape",
    "C11_too_few_special_primes_panic"
   ],
   "note": ""
  },
  {
   "property": "C12",
   "status": "proved",
   "theorems": [
    "C12_encrypt_decrypt"
   ],
   "note": ""
  },
  {
   "property": "C13",
   "status": "proved",
   "theorems": [
    "C13_decrypt"
   ],
   "note": ""
  },
  {
   "property": "C14",
   "status": "proved",
   "theorems": [
    "C14_partial_decryptions"
   ],
   "note": ""
  },
  {
   "property": "C15",
   "status": "proved",
   "theorems": [
    "C15_expand",
    "C15_expand_without_own_id"
   ],
   "note": "The encoder is any function writing a full-level plaintext polynomial."
  },
  {
   "property": "C16",
   "status": "proved",
   "theorems": [
    "C16_used_container"
   ],
   "note": ""
  },
  {
   "property": "C17",
   "status": "proved",
   "theorems": [
    "C17_decryptor_history"
   ],
   "note": ""
  },
  {
   "property": "C18",
   "status": "proved",
   "theorems": [
    "C18_add",
    "C18_sub"
   ],
   "note": "The output is fixed before the map orders and the evaluator's state are quantified."
  },
  {
   "property": "C19",
   "status": "proved",
   "theorems": [
    "C19_add_aligned",
    "C19_sub_aligned",
    "C19_integer_ratio",
    "C19_ratio_refuted"
   ],
   "note": "Exact integer factors for all comparable scales, exactness for integer ratios, and ratio 1.5 as the counterexample."
  },
  {
   "property": "C20",
   "status": "proved",
   "theorems": [
    "C20_history_independent",
    "C20_history_states",
    "C64_operands"
   ],
   "note": "Every method that uses the evaluator's state (Add, Sub, Rescale, MulPtxt, MulRelin, hoisted multiplication, rotations, conjugation, hoisted forms), in the history and as the call compared; results include errors and panics. That operands are not modified is C64_operands (in the value model it holds by construction)."
  },
  {
   "property": "C21",
   "status": "proved",
   "theorems": [
    "C21_real",
    "C21_rounding",
    "C21_int",
    "C21_other_types_give_zero"
   ],
   "note": "Constants of an unsupported Go type silently give zero."
  },
  {
   "property": "C22",
   "status": "proved",
   "theorems": [
    "C22_complex",
    "C22_complex_refuted"
   ],
   "note": ""
  },
  {
   "property": "C23",
   "status": "proved",
   "theorems": [
    "C23_mul_plaintext",
    "C23_panics"
   ],
   "note": ""
  },
  {
   "property": "C24",
   "status": "proved",
   "theorems": [
    "C24_rescale",
    "C24_rescale_into"
   ],
   "note": ""
  },
  {
   "property": "C25",
   "status": "proved",
   "theorems": [
    "C25_rescale_new_zero"
   ],
   "note": ""
  },
  {
   "property": "C26",
   "status": "proved",
   "theorems": [
    "C26_rescale_panics"
   ],
   "note": ""
  },
  {
   "property": "C27",
   "status": "proved",
   "theorems": [
    "C27_mul_and_relin",
    "C27_mul_relin_new",
    "C27_key_set_ready"
   ],
   "note": "KeySwitcher level and evaluator level with the final rescale; one ciphertext for all states, pools and orders, also returned by MulRelinHoistedNew."
  },
  {
   "property": "C28",
   "status": "proved",
   "theorems": [
    "C28_hoisted_agrees"
   ],
   "note": "KeySwitcher level: MulAndRelin, MulAndRelinHoisted with nil and with hoisted forms of the output level return the same ciphertext, for every map order and scratch content."
  },
  {
   "property": "C29",
   "status": "proved",
   "theorems": [
    "C29_hoist_above"
   ],
   "note": "Digits of a higher level recombine modulo every prime of the lower level; C27_mul_and_relin shows the resulting product is correct."
  },
  {
   "property": "C30",
   "status": "proved",
   "theorems": [
    "C30_rotate"
   ],
   "note": "every integer k; keys as in rot_ready; noise as an explicit multiple of one key switch"
  },
  {
   "property": "C31",
   "status": "proved",
   "theorems": [
    "C31_slots_any_ring",
    "C31_conjugation_any_ring",
    "C31_slots",
    "C31_conjugation"
   ],
   "note": ""
  },
  {
   "property": "C32",
   "status": "proved",
   "theorems": [
    "C32_bijection",
    "C32_no_stale_data",
    "C32_automorphism",
    "C32_unreduced_zero"
   ],
   "note": "about the permutation loop shared by Rotate and ring.Permute, logN up to 30"
  },
  {
   "property": "C33",
   "status": "proved",
   "theorems": [
    "C33_hoisted",
    "C33_hoisted_panics",
    "C33_hoisted_form"
   ],
   "note": "equality of the returned ciphertexts as maps, words included"
  },
  {
   "property": "C34",
   "status": "proved",
   "theorems": [
    "C34_conjugate"
   ],
   "note": "at the maximum level; below it see C52"
  },
  {
   "property": "C35",
   "status": "proved",
   "theorems": [
    "C35_default_keys",
    "C35_crs_without_key",
    "C35_missing_key"
   ],
   "note": ""
  },
  {
   "property": "C36",
   "status": "proved",
   "theorems": [
    "C36_secret_key",
    "C36_public_key",
    "C36_switching_key",
    "C36_relinearization_key",
    "C36_rotation_key",
    "C36_conjugation_key"
   ],
   "note": ""
  },
  {
   "property": "C37",
   "status": "proved",
   "theorems": [
    "C37_rotation_key_index",
    "C37_sparse_key_pair_panics"
   ],
   "note": ""
  },
  {
   "property": "C38",
   "status": "proved",
   "theorems": [
    "C38_published_keys_reveal_errors"
   ],
   "note": ""
  },
  {
   "property": "C39",
   "status": "proved",
   "theorems": [
    "C39_rotation_key_zero_reveals_secret"
   ],
   "note": "Also recovers ternary secrets."
  },
  {
   "property": "C40",
   "status": "proved",
   "theorems": [
    "C40_addcrs",
    "C40_old_keys_invalid"
   ],
   "note": ""
  },
  {
   "property": "C41",
   "status": "proved",
   "theorems": [
    "C41_bit_reverse",
    "C41_target",
    "C41_twice",
    "C41_diverges"
   ],
   "note": "the non-termination is proved for every N that is not a power of two"
  },
  {
   "property": "C42",
   "status": "proved",
   "theorems": [
    "C42_scale_up",
    "C42_scale_down",
    "C42_modulus_reached",
    "C42_scale_up_vec",
    "C42_big_float",
    "C42_big_infinite",
    "C42_big_empty",
    "C42_interface_mod",
    "C42_interface_mod_int64",
    "C42_int64_reduced_refuted"
   ],
   "note": "C42_scale_down bounds the error of scaleDown."
  },
  {
   "property": "C43",
   "status": "proved",
   "theorems": [
    "C43_chain",
    "C43_rescaling_params"
   ],
   "note": ""
  },
  {
   "property": "C44",
   "status": "proved",
   "theorems": [
    "C44_sum_rows",
    "C44_sum_shifts"
   ],
   "note": "SumRowVec on exact slots, in every commutative ring, for every number of rows and columns."
  },
  {
   "property": "C45",
   "status": "proved",
   "theorems": [
    "C45_sum_columns",
    "C45_mask"
   ],
   "note": "SumColVec on exact slots, in every commutative ring; the programs' mask vector is the mask of the theorem."
  },
  {
   "property": "C46",
   "status": "proved",
   "theorems": [
    "C46_training",
    "C46_training_reals",
    "C46_inference",
    "C46_minibatch",
    "C46_encrypted",
    "C46_encrypted_minibatch",
    "C46_encrypt_inputs",
    "C46_decrypt_results"
   ],
   "note": "From the data tables to v, beta and the prediction, on exact slots (the float64 preparation of the constants is ring arithmetic), for every number of iterations, rows, columns and features; and on the modelled encryptor and evaluator with explicit worst-case error bounds, which are computed by errOps and not small numerically."
  },
  {
   "property": "C47",
   "status": "proved",
   "theorems": [
    "C47_levels",
    "C47_shipped_lr",
    "C47_shipped_lr_toy",
    "C47_shipped_minibatch",
    "C47_shipped_minibatch_toy"
   ],
   "note": "C47_levels: any number of iterations. The C47_shipped theorems run the four programs on the modelled evaluator with the shipped parameters and float64 scales, for all data and keys; lr_minibatch_toy.go runs three iterations."
  },
  {
   "property": "C48",
   "status": "proved",
   "theorems": [
    "C48_partition",
    "C48_packing",
    "C48_labels",
    "C48_batch_size",
    "C48_batch_size_otherwise",
    "C48_minibatch_refuted"
   ],
   "note": "Partition and packing proved for every configuration; a finding: when batchSize exceeds the points per ciphertext and is no multiple, batches hold more than batchSize points."
  },
  {
   "property": "C49",
   "status": "proved",
   "theorems": [
    "C49_orderly",
    "C49_alone",
    "C49_race_effect",
    "C49_race_refuted"
   ],
   "note": "Any number of goroutines. The positive half: every schedule in which calls with common parties do not overlap. The negative half: what the overlap computes, for all operands, and a pair of calls with the shipped parameters whose result no sequential schedule returns."
  },
  {
   "property": "C50",
   "status": "proved",
   "theorems": [
    "C50_gamma_not_dividing_panics"
   ],
   "note": ""
  },
  {
   "property": "C51",
   "status": "proved",
   "theorems": [
    "C51_output_domain_refuted",
    "C13_decrypt"
   ],
   "note": "The documented claim is refuted; C13_decrypt is the exact behaviour."
  },
  {
   "property": "C52",
   "status": "proved",
   "theorems": [
    "C52_conjugate_panics",
    "C34_conjugate"
   ],
   "note": "returns at the maximum level (C34), panics below it"
  },
  {
   "property": "C53",
   "status": "proved",
   "theorems": [
    "C53_setup",
    "C53_program",
    "C53_program_batch",
    "C53_lr",
    "C53_lr_toy",
    "C53_lr_minibatch",
    "C53_lr_minibatch_toy"
   ],
   "note": "From NewParameters to the decoded predictions. The samplers and the CKKS encoder are arbitrary functions with the stated bounds (run_ok); error bounds are worst-case. lr_toy.go decrypts z right after encrypting it, the model just before training. Reading files, timing and printing are not part of it."
  },
  {
   "property": "C54",
   "status": "proved",
   "theorems": [
    "C54_read",
    "C54_read_iff",
    "C54_tables"
   ],
   "note": "The fields are given; splitting the text into fields and ParseFloat (a parameter) are not modelled."
  },
  {
   "property": "C55",
   "status": "proved",
   "theorems": [
    "C55_labels",
    "C55_labels_int",
    "C55_programs_agree_refuted",
    "C55_missing_rows"
   ],
   "note": "Two findings: missing rows become members of class 0; lr_minibatch_toy.go truncates labels."
  },
  {
   "property": "C56",
   "status": "proved",
   "theorems": [
    "C56_normalise_toy",
    "C56_normalise_minibatch_toy",
    "C56_rounding_toy",
    "C56_rounding_minibatch_toy",
    "C56_constant_column",
    "C56_missing_rows"
   ],
   "note": "Mean and variance in exact arithmetic; the float64 table differs from the exact one by a proved rounding error when the deviation of the column is not tiny; the findings in float64. math.Pow(x,2) is x*x."
  },
  {
   "property": "C57",
   "status": "proved",
   "theorems": [
    "C57_count",
    "C57_count_clear",
    "C57_nan"
   ],
   "note": "The decoder is any function within ed of the slots (decoder_ok)."
  },
  {
   "property": "C58",
   "status": "proved",
   "theorems": [
    "C58_mult_by_const",
    "C58_mult_by_const_any",
    "C58_rescale",
    "C58_rotate",
    "C58_mul_hoisted",
    "C58_conjugate_mirrors",
    "C58_conjugate_in_place_refuted",
    "C58_mul_in_place_refuted",
    "C58_square_in_place_zero"
   ],
   "note": "Findings: in-place Conjugate is wrong, and so is MulAndRelin into either operand (right only when the hoisted form of the overwritten first operand is given: C58_mul_hoisted). The keys of the refutation for one overwritten operand use a special public reference string; for squaring in place the result is wrong with every key."
  },
  {
   "property": "C59",
   "status": "proved",
   "theorems": [
    "C59_value",
    "C59_rounding",
    "C59_constant",
    "C59_empty",
    "C59_zero_for_equal_entries_refuted"
   ],
   "note": "The value in exact arithmetic, the rounding error in float64 for up to 2^20 entries, special cases in float64."
  },
  {
   "property": "C60",
   "status": "proved",
   "theorems": [
    "C60_only_powers_used",
    "C60_shipped_setup",
    "C60_backward_needs"
   ],
   "note": "A finding: the extra rotation keys of the four programs are never used."
  },
  {
   "property": "C61",
   "status": "proved",
   "theorems": [
    "C61_circuit",
    "C61_encrypt",
    "C61_decrypt"
   ],
   "note": "Sequences of calls that return new ciphertexts, with and without hoisted forms, and of MultByConst, Rescale and DropLevel in place; other in-place calls are C58. The encoder is any function whose polynomial has the slots up to an error."
  },
  {
   "property": "C62",
   "status": "proved",
   "theorems": [
    "C62_constants",
    "C62_batches",
    "C62_held",
    "C62_lr",
    "C62_lr_toy",
    "C62_minibatch",
    "C62_minibatch_toy"
   ],
   "note": "Features are the float64 values the program holds when it packs them."
  },
  {
   "property": "C63",
   "status": "proved",
   "theorems": [
    "C63_sizes",
    "C63_sizes_are_the_models",
    "C63_too_many_features",
    "C63_pow2",
    "C63_square"
   ],
   "note": "math.Log2 and math.Pow follow Go's standard library; math.Log is any function accurate to 2^-45 (a hypothesis, with a witness); the sizes are those of the packing theorems C48. math.Pow(d,2) for |d| = 0 or between 2^-500 and 2^500."
  },
  {
   "property": "C64",
   "status": "proved",
   "theorems": [
    "C64_calls",
    "C64_operands",
    "C64_circuit",
    "C64_heaps"
   ],
   "note": "HeapEv.v repeats the methods as programs over pointers; C64_calls shows that every sequence of them behaves on objects as on values, with new and in-place results. Keys, hoisted forms, plaintexts and polynomial pools are values; lattigo's functions write only their output polynomial (an assumption for DivRoundByLastModulus, see C67)."
  },
  {
   "property": "C65",
   "status": "proved",
   "theorems": [
    "C65_partial_decryption_reveals_secret",
    "C65_one_key",
    "C65_raw_plaintext_reveals_secret"
   ],
   "note": "Exact algebra of the model's PartialDecrypt and Decrypt; the inverse of the public component is a hypothesis, characterised by its NTT values. Nothing is claimed about how likely a uniform component is invertible."
  },
  {
   "property": "C66",
   "status": "proved",
   "theorems": [
    "C66_modup",
    "C66_moddown",
    "C66_moddown_P",
    "C66_decompose",
    "C66_const",
    "C66_short_limbs_refuted",
    "C66_degree_8_refuted"
   ],
   "note": "Unsafe.v repeats the loops on one flat memory, with the casts to eight-word arrays, the y arrays kept between blocks and the pools; the theorems compose with C06, C08, C09, C10 and C58. Precomputed tables stay values. lattigo (recalled) rejects rings of degree below 16, so the refuted sizes need a ring built in another way."
  },
  {
   "property": "C67",
   "status": "proved",
   "theorems": [
    "C67_in_place",
    "C67_into",
    "C67_new",
    "C67_new_kept",
    "C67_half",
    "C67_operand_refuted"
   ],
   "note": "Clobber.v repeats Rescale and RescaleNew with the content of the overwritten limb as a parameter. What lattigo v2.3.0 leaves there (addHalf) is recalled, not read; C67_half and C67_operand_refuted depend on it, the other theorems do not."
  },
  {
   "property": "C68",
   "status": "proved",
   "theorems": [
    "C68_shared",
    "C68_add",
    "C68_add_total",
    "C68_genTestParams"
   ],
   "note": "ParamVars.v: variables hold the immutable fields and the address of a map. The value of a family is defined from the trace with the functions of Params.v. Concurrent AddCRS calls are not modelled."
  },
  {
   "property": "C69",
   "status": "proved",
   "theorems": [
    "C69_normalise",
    "C69_negative",
    "C69_rotate",
    "C69_rotate_hoisted",
    "C69_default_keys",
    "C69_sums",
    "C69_sums_refuted",
    "C69_normalise_refuted"
   ],
   "note": "Loops.v: a loop is an inductive relation between the state at entry, the number of rounds and the outcome; a loop that is never left has no outcome. N = 1 and bounds above 2^62 do not occur in the programs."
  },
  {
   "property": "C70",
   "status": "proved",
   "theorems": [
    "C70_moddown_ntt"
   ],
   "note": "DownNTT.v. ring.NTTLazy is recalled: some representative below 2q of the transform. ShallowCopy (155-172) shares the tables and allocates new scratch polynomials; in the model it is the same extender, as the functions hold for every content of the scratch polynomials (C66)."
  },
  {
   "property": "C71",
   "status": "proved",
   "theorems": [
    "C71_drop_level",
    "C71_undone",
    "C71_new_negative",
    "C71_value_model"
   ],
   "note": "Slices.v. ring.Poly.CopyNew is recalled: it allocates len(Coeffs) rows. C71_undone is a finding: the in-place function takes negative counts after a positive one."
  },
  {
   "property": "C72",
   "status": "proved",
   "theorems": [
    "C72_isolated",
    "C72_no_race",
    "C72_mul",
    "C72_race_iff"
   ],
   "note": "Words.v. Refines C49 to steps of one word and to the exact condition. Sequentially consistent memory; a component is decomposed in the goroutine's own memory and then stored, and the digits are loaded before the hoisted multiplication."
  },
  {
   "property": "C73",
   "status": "proved",
   "theorems": [
    "C73_add",
    "C73_sub",
    "C73_add_into_first",
    "C73_add_loses_parties",
    "C73_new"
   ],
   "note": "AliasAdd.v. C73_add_loses_parties is a finding on unexported code: a receiver without all the parties loses components silently. C73_new ties the model to that of AddNew and SubNew."
  },
  {
   "property": "C74",
   "status": "proved",
   "theorems": [
    "C74_copy",
    "C74_write",
    "C74_shared",
    "C74_renamed",
    "C74_values",
    "C74_zero_keys",
    "C74_zero_switching_keys"
   ],
   "note": "KeyObj.v. C74_renamed and C74_zero_keys describe hazards of the interface: nothing stops a caller from renaming a stored key or from encrypting with a key that was never generated."
  },
  {
   "property": "C75",
   "status": "proved",
   "theorems": [
    "C75_objects",
    "C75_separate",
    "C75_race_iff",
    "C75_shared_wrong"
   ],
   "note": "ExtConc.v. C75_shared_wrong is a hazard of sharing, which the comment of ShallowCopy only hints at. The in-place NTT of the scratch limbs is one load and one store per word."
  },
  {
   "property": "C76",
   "status": "proved",
   "theorems": [
    "C76_key",
    "C76_outcomes",
    "C76_joint",
    "C76_marginal",
    "C76_not_thirds",
    "C76_cut"
   ],
   "note": "Samplers.v. The PRNG is its bits, uniform by counting; the ternary sampler and the default sigma are lattigo's, recalled. C76_not_thirds is a wrong comment in the code, not a wrong key."
  }
 ]
}
