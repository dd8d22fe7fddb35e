# DESIGN — formal model of hdavidkang/share_to_gain in Rocq (Coq 8.16.1)

The code is a multi-key RLWE/CKKS homomorphic-encryption library (`mkrlwe`, `mkckks`, on top of
lattigo v2.3.0) and encrypted logistic-regression programs (`lr`).

## 1. The model (`rocq/theories`)

| layer | model files | what they model |
|---|---|---|
| Go | `Go.v` | panics as values of `res` (`PNil`, `PIndex`, `PDiverge`, `PMsg`), uint64 words as `Z` with explicit `mod 2^64`, checked indexing, loops |
| float64 | `F64.v` | IEEE binary64 through `Coq.Floats.SpecFloat` (executable, axiom free) |
| lattigo scalars | `Lattigo.v` | MRed, MForm, BRed, CRed, ModExp … of lattigo v2.3.0, word by word (text recalled, not in /repo) |
| lattigo rings | `NTT.v`, `RingOps.v` | NTT and inverse NTT as the sums they compute, Galois permutations, leveled ring operations with their index panics |
| basis extension | `BasisExt.v` | `mkrlwe/basis_extension.go`, word by word, with its 128-bit accumulators and float64 correction |
| eight-word loops | `Unsafe.v` | the unsafe loops of `basis_extension.go` and of `MultByConst` on a flat memory of words |
| overwritten operands | `Clobber.v` | `Rescale` and `RescaleNew` with a division that overwrites the last limb of its operand |
| parameter variables | `ParamVars.v` | `Parameters` values as variables that share the map `CRS`; what `genTestParams` does with them |
| loops | `Loops.v` | the condition-controlled loops as loops on int64, with their number of rounds |
| division in NTT form | `DownNTT.v` | `ModDownQPtoQNTT` |
| slices | `Slices.v` | `DropLevel`, `DropLevelNew` with lengths and capacities |
| words | `Words.v` | the calls of `MulRelinNew` as programs of loads and stores of pool words |
| in-place sums | `AliasAdd.v` | `evaluateInPlace`, `add` and `sub` with any receiver |
| keys as objects | `KeyObj.v` | key structs, `CopyNew`, key sets holding pointers, the constructors' zero keys |
| extenders as objects | `ExtConc.v` | `ShallowCopy`, scratch polynomials as shared words, goroutines calling the ModDown functions |
| samplers | `Samplers.v` | ternary sampler as a function of random bits, `GenSecretKey`, cut of the Gaussian errors |
| containers | `Maps.v`, `Elements.v`, `KeySets.v` | `idset.go`, `elements.go`, `keys.go`: Go maps with an explicit iteration order |
| objects | `Heap.v`, `HeapEv.v` | pointers: which cells a ciphertext and its copies share; the Evaluator's methods on ciphertext objects in memory |
| parameters and keys | `Params.v`, `KeyGen.v` | `mkrlwe/params.go`, `mkrlwe/keygen.go` |
| key switching | `KeySwitch.v` | `keyswitch.go`, `keyswitch_hoisted.go` with all scratch polynomials threaded |
| encryption | `EncDec.v` | `encryptor.go`, `decryptor.go` of both packages |
| CKKS evaluator | `Evaluator.v`, `Utils.v`, `UtilsBig.v` | `mkckks/evaluator.go`, `mkckks/utils.go` |
| programs | `LR.v`, `LREval.v` | `lr/*.go`: the training and inference loops over an arbitrary evaluator, their run on exact slots, on levels and scales, and on the modelled Evaluator; packing of the data |
| main functions | `LRSetup.v` | `genTestParams` and `main` of the four programs: set-up, encryption of the inputs, training with printed decryptions, predictions |
| data | `LRData.v` | `readData`, the relabelling and normalisation loops, counting correct predictions |
| statistics | `Stats.v` | `StandardDeviation` |
| `lr/lr_minibatch*.go` sizes | `LRSize.v` | math.Log2, math.Ceil, math.Pow in float64 |
| `lr/*.go` constants | `LRConst.v` | float64 arithmetic of the constants and of the minibatch label vectors |
| callers | `Circuit.v` | any sequence of evaluator calls that return new ciphertexts or update one in place (MultByConst, Rescale, DropLevel) |
| in-place calls | `Alias.v` | `MultByConst`, `Rescale`, `Rotate`, `Conjugate`, `MulAndRelin` with the receiver as operand |
| concurrency | `Conc.v` | goroutines that call MulRelinNew with one RelinearizationKeySet, step by step |

Specification files contain definitions only and are what a reader needs besides the statements: `Spec.v` (words,
moduli, products), `NegRing.v` (Z[X]/(X^N+1) on coefficient functions), `Repr.v` (which integer polynomial a limb stands for, well-formed
parameters), `SpecKeys.v`, `SpecCt.v` (phase of a ciphertext), `SpecEnc.v`, `SpecEv.v`, `SpecHist.v`, `SpecRot.v`, `SpecSlots.v` (evaluation
at the roots), `SpecLR.v` (Nesterov steps), `SpecLREnc.v` (what a ciphertext encrypts up to an error; error bounds of the operations on slots), `SpecSetup.v` (assumptions on samplers and encoder, result of a run), `SpecData.v` (files, normalised tables, decoders), `SpecStats.v` (deviation), `SpecMem.v` (arrays in memory), `SpecClobber.v` (overwritten limbs), `SpecVars.v` (families of parameter copies), `SpecDown.v` (quotients), `SpecSlices.v` (windows on arrays), `SpecWords.v` (footprints, data races), `SpecInPlace.v` (a ciphertext restricted to parties), `SpecKeyObj.v` (programs over keys on values), `SpecExt.v` (the ModDown calls on values), `SpecSamplers.v` (all outcomes of random bits, counting).  `Props_*.v` contain only theorem statements closed by `exact lemma.`, `Print Assumptions`,
and `Example`s `Cnn_case` showing that the hypotheses are met, mostly by the shipped parameter set PN15QP880 (`Shipped.v`, primality
by Pocklington certificates checked in `Pock.v`) with generated keys.  All other files are proofs.

Conventions.
* Randomness is an explicit argument: the integer polynomials the samplers return, within the samplers' bounds.
* Go map iteration order is an explicit oracle `order`; theorems quantify over every oracle (`order_ok`). Results of map type are compared by `same_ct`.
* Scratch memory (pools of the Evaluator, KeySwitcher, KeyGenerator, Encryptor, Decryptor) is threaded through the calls, and the theorems
  quantify over its contents; where it matters the statement has the form "there is an output such that for all scratch states and orders the call returns it".
* Ciphertexts are values; sharing is treated in `Heap.v` (containers) and `HeapEv.v` (evaluator methods), where it is proved that operands keep their values; elsewhere that is part of the reading of the code.
* A polynomial in RNS form is a list of limbs of N words each; the `IsNTT` flag is tracked.

## 2. Properties: what is modelled and how it is proved

| id | property | status | model | proof |
|---|---|---|---|---|
| C01 | IDSet is a finite set of non-reserved ids | proved | Maps.v | programs over set variables; induction on the program |
| C02 | Ciphertext construction, id set and level agree | proved | Elements.v | direct; loops over any map order |
| C03 | CopyNew is a deep copy | proved | Heap.v | frame invariant (disjoint reachable cells) preserved by every operation, induction on the history |
| C04 | Key sets behave as maps | proved | KeySets.v | induction on the history of Add/Del/Get |
| C05 | Basis-extension tables are correct | proved | BasisExt.v | word-level: no wrap-around, Fermat inverses |
| C06 | Basis extension (ModUp) reconstructs the residue | proved | BasisExt.v | 128-bit accumulation, float64 error analysis through Flocq, CRT |
| C07 | "modUpExact" is not always exact, nor in the documented range | proved | BasisExt.v | concrete counterexamples to the comments; range by the same analysis |
| C08 | ModDownQPtoQ divides by P with floor, not rounding | proved | BasisExt.v | congruences; counterexample to rounding |
| C09 | ModDownQPtoP divides by Q only when levelQ = levelP | proved | BasisExt.v | congruences; counterexample for unequal levels |
| C10 | Gadget decomposition recombines to the input | proved | BasisExt.v | digit by digit, CRT recombination |
| C11 | Alpha, Beta and the CRS shape are consistent | proved | Params.v | float64 ceil by Flocq; shape by induction |
| C12 | Encrypt then Decrypt returns message plus bounded noise | proved | EncDec.v | per-limb congruence with one bounded integer noise polynomial |
| C13 | Decrypt needs exactly the involved keys, in any order | proved | EncDec.v | permutation invariance of the sum |
| C14 | Partial decryptions commute and merge to Decrypt | proved | EncDec.v | induction on the list of partial decryptions |
| C15 | EncryptMsgNewExpand adds parties without changing the plaintext | proved | EncDec.v | direct |
| C16 | Encrypting into a used ciphertext keeps foreign components | proved | EncDec.v | direct, for every content of the container |
| C17 | A Decryptor's output level is the minimum over its history | proved | EncDec.v | induction on the history of calls |
| C18 | AddNew and SubNew are exact on equal scales | proved | Evaluator.v | loop over the padded pools; uniform output |
| C19 | AddNew aligns scales by an integer factor only | proved | Evaluator.v | float64 quotients through Flocq; counterexample for a non-integer ratio |
| C20 | Evaluator results do not depend on its history | proved | Evaluator.v, SpecHist.v | inductive reachable states; for every call (evcall) one result for all well-formed states, map orders, pools and hoisted forms (MulUni.v, HistThms.v) |
| C21 | MultByConst with a real constant multiplies the plaintext | proved | Evaluator.v | float64 rounding, limb congruences |
| C22 | MultByConst with a complex constant is not multiplication | proved | Evaluator.v | limb congruences; counterexample |
| C23 | MulPtxtNew multiplies by the encoded plaintext | proved | Evaluator.v | NTT products, exact rounded division |
| C24 | Rescale drops the right number of moduli | proved | Evaluator.v | rescale loop by induction on the level; exact rounded division over the integers |
| C25 | RescaleNew without division returns a zero ciphertext | proved | Evaluator.v | direct |
| C26 | Rescale panics when the scale exceeds the whole modulus | proved | Evaluator.v | characterisation of the loop, both directions |
| C27 | MulRelinNew multiplies multi-key ciphertexts | proved | KeySwitch.v, Evaluator.v | gadget identities, noise polynomial bounded by induction over digits and parties |
| C28 | Hoisted and plain multiplication agree bit for bit | proved | KeySwitch.v | same outputs limb by limb |
| C29 | Hoisting at a higher level stays valid | proved | KeySwitch.v | gadget digits at a higher level |
| C30 | RotateNew applies the Galois automorphism to the plaintext | proved | KeySwitch.v, Evaluator.v | induction on the bits of the index |
| C31 | Rotation moves slots left by k | proved | SpecSlots.v | evaluation at roots in any commutative ring, and at the complex roots |
| C32 | The in-place coefficient permutation of Rotate is a bijection | proved | KeySwitch.v (permutation loop) | bijection of the index map |
| C33 | RotateHoistedNew equals RotateNew on precomputed indices | proved | KeySwitch.v, Evaluator.v | as C30 |
| C34 | ConjugateNew applies X -> X^(2N-1) | proved | KeySwitch.v, Evaluator.v | as C30 |
| C35 | Default rotation keys suffice for every rotation | proved | KeyGen.v, KeySwitch.v | induction on the parties; missing keys |
| C36 | Generated keys satisfy their defining equations | proved | KeyGen.v | limb congruences between generated key parts |
| C37 | GenRotationKey checks the CRS before normalising the index | proved | KeyGen.v | direct |
| C38 | Public key plus relinearization key reveal the encryption error | proved | KeyGen.v | the recovery algorithm is defined and proved |
| C39 | A rotation key for index 0 reveals the secret | proved | KeyGen.v | direct |
| C40 | AddCRS keeps other indices and invalidates keys of an existing index | proved | Params.v, KeyGen.v | direct |
| C41 | Bit-reversal helpers | proved | Utils.v | loop invariant on the reversed counter |
| C42 | Constant reduction helpers | proved | Utils.v, UtilsBig.v | float64 and big.Float rounding through Flocq; induction on the loops |
| C43 | Modulus-chain helpers | proved | Utils.v | induction |
| C44 | SumRowVec sums each column over all rows | proved | LR.v | induction on the power of two, any commutative ring |
| C45 | SumColVec fills each row with its sum | proved | LR.v | as C44 |
| C46 | One training iteration is one Nesterov step | proved | LR.v, LREval.v | as C44, induction on the iterations; reals as an instance; relational run of the same program on exact slots, on error bounds and on the modelled Evaluator |
| C47 | Training never runs out of levels | proved | LR.v, LREval.v | relational run of the program on (level, scale) and on the modelled Evaluator |
| C48 | Mini-batch packing is a partition | proved | LR.v | arithmetic of the packing; counterexample for batch sizes that do not fit |
| C49 | Sharing a RelinearizationKeySet between evaluators is unsafe | proved | Conc.v | small-step machine with any number of goroutines over the shared pools; invariant for orderly schedules, constructed schedule for the race |
| C50 | gamma must divide the number of special primes | proved | BasisExt.v | index panic of the table lookup |
| C51 | The decrypted polynomial is in the ciphertext's domain, not the plaintext's | proved | EncDec.v | counterexample |
| C52 | Conjugation below the top level panics | proved | KeySwitch.v | index panic of ring.Permute |
| C53 | The programs run from set-up to the decrypted predictions | proved | LRSetup.v | the invariants of parameters, CRS and key generation give the setting of C46 (setup_ok); then a relational run of main, with the decryptions in between, on slots and error bounds |
| C54 | readData accepts exactly the well-formed files | proved | LRData.v | inversion and construction over the loops on rows and fields: readData succeeds exactly on well-formed files and returns their tables |
| C55 | Labels become membership of the chosen class | proved | LRData.v | in-place loop invariant; comparison and truncation of float64 through Flocq |
| C56 | Normalisation gives mean 0 and variance 1 on the training rows | proved | LRData.v (operations as a record: float64 and reals) | structure of the result for any arithmetic, then algebra over the reals; the float64 table by forward error analysis through Flocq; the constant column by exactness of small integers in float64 |
| C57 | The reported number of correct predictions is right | proved | LRData.v | one step of the counter on finite values through Flocq; with a decoder within ed of the slots, the side of 1/2 is that of the exact value |
| C58 | Calls that write into one of their operands | proved | Alias.v (operand None = the receiver; word-by-word loops) | loop invariants show that each word is read before it is overwritten, so the in-place call equals the call into a separate ciphertext; for Conjugate the loop is solved exactly (mirrored) and a witness with valid keys refutes the claim; for MulAndRelin zero components stay zero through basis extension, gadget products and ModDown, so operands with a zero component "0" give zero where the product is not |
| C59 | StandardDeviation computes the scaled deviation of a vector | proved | Stats.v (operations as a record: float64 and reals) | algebra over the reals; forward error analysis of the sums, the division and the square root through Flocq; exactness of small integers; computation |
| C60 | Rotation keys the programs use | proved | LR.v, LREval.v, LRSetup.v, Evaluator.v | two instances of the operations that agree on the rotations asked for give equal runs; rotations by binary expansion read only the keys of powers of two; the indices of the common reference strings of the set-up are computed |
| C61 | Any sequence of evaluator calls computes on complex slots | proved | Circuit.v (a caller that makes any sequence of evaluator calls) | each call is related to the complex slots of its operands with an explicit error (CircErr.v, CircProofs.v), then induction on the sequence; encryption and decryption for complex slots (CircEnc.v) |
| C62 | Rounding of the constants and data packing | proved | LRConst.v (the constants in float64 arithmetic, lr.go:165-243, and the batches of the minibatch programs) | an error calculus for float64 operations (LRConstProofs.v) bounds every constant; packing commutes with taking real values; ciphertexts of nearby values hold the real ones with a larger error; then C47 (LRConstThms.v) |
| C63 | The sizes the mini-batch programs compute in floating point are the intended integers | proved | LRSize.v (math.Frexp, Ldexp, Log2, Pow, Ceil and the size computations of lr_minibatch.go:129-137 in float64) | the loop of math.Pow keeps the fraction 1/2 and doubles the exponent (induction over the bits); the binary logarithm of a fraction t away from 1/2 and 1 is t away from -1 and 0, so that rounding cannot reach an integer; rounding commutes with powers of two for the square (LRSizeProofs.v, LRSizeThms.v) |
| C64 | Evaluator calls on objects: results are independent, operands and other objects stay as they are | proved | HeapEv.v (the methods of evaluator.go and keyswitch*.go as programs that read and write the memory of Heap.v through pointers) | one program, two interpretations: on separated objects the heap run follows the run on a list of values (HeapEvSim.v); the run on values is the value model of Evaluator.v, call by call (HeapEvVals.v, HeapEvCalls.v); induction on the sequence (HeapEvThms.v) |
| C65 | A published partial decryption reveals the party's secret | proved | EncDec.v | the difference of the two components "0" is s times the public component; multiply by its inverse; invertibility through the NTT being a bijection (PartialLeak.v) |
| C66 | The loops that process eight words at a time stay inside their arrays and compute every coefficient | proved | Unsafe.v (flat memory, arrays as address and length, unchecked eight-word accesses) | simulation: block by block the memory loops follow the coefficient-wise model, with a frame condition; then C06, C08, C09, C10, C58; two sizes refuted by computation |
| C67 | Rescaling tolerates a division that overwrites the last limb of its operand, except for the operand itself | proved | Clobber.v (Rescale with the overwritten limb as a parameter) | relation: both models agree on the limbs that are read, step by step; then C24 and C58; phase of the operand by linearity; a call refuted through the general theorem |
| C68 | Copies of a Parameters value share their common reference strings | proved | ParamVars.v (variables of type Parameters, maps by address) | invariant over the trace: each variable's address belongs to its family and the map holds the family's value; the set-up of the programs as a trace |
| C69 | Rotation-index and doubling loops end, on int64, with the values the model uses | proved | Loops.v (while loops as a relation, int64 arithmetic) | determinism of the loop relation plus one constructed run; induction on the quotient, on binary digits and on the exponent; an invariant for divergence |
| C70 | ModDownQPtoQNTT divides by P in the NTT domain | proved | DownNTT.v | the extension of C06 gives one integer polynomial Y for all limbs; linearity of the transform; cancel P modulo q; the remainder bound of C08 |
| C71 | DropLevel moves a window: dropped limbs stay reachable | proved | Slices.v | one fold over the components for each outcome; int64 wrap of the count; the views of the two folds agree |
| C72 | Concurrent multiplications, word by word: they race exactly when they use one pool entry | proved | Words.v | programs as trees of loads and stores; non-interference by induction on the schedule; a goroutine alone refines the sequential proof of the product; for the race, run both to the first store of the shared entry |
| C73 | Sums and differences into an operand: only the receiver's parties are added | proved | AliasAdd.v | one lemma for the loop over the receiver's ids, with each operand either a separate map or the current receiver; DropLevel as truncation of every component; in-place MultByConst from C58 |
| C74 | Keys and key sets as objects: copies are independent, sets share | proved | KeyObj.v | invariant: pointers in range, polynomials of distinct keys disjoint, the copy's address held by one variable only; simulation by the value semantics; C12 with the zero key |
| C75 | Basis extenders and their shallow copies in goroutines | proved | ExtConc.v | freshness invariant for the pool numbers; the isolation theorem of C72 with one pool pair per goroutine as footprint; a call alone runs to its value; vm_compute for the wrong result |
| C76 | Ternary keys from random bits, and the cut of the errors | proved | Samplers.v | induction on the number of coefficients; counting by the first pair of bits; 4^N is 1 modulo 3; vm_compute in SpecFloat |

No property of the list is considered inexpressible. Theorem names per property are in MANIFEST.json; every one of them is in a `Props_*.v` file.

## 3. Trusted base

* The kernel of Coq 8.16.1 (also re-checked with coqchk).
* The reading of the Go text into the model (the cited lines) and the statements in `Props_*.v` with the `Spec*.v`, `Repr.v`, `NegRing.v` vocabulary.
* The recalled behaviour of lattigo v2.3.0, whose text is not in the sandbox (`Lattigo.v`, `NTT.v`, `RingOps.v`, samplers, `DivRoundByLastModulus…`, encoder as a parameter).
* Flocq and the standard library are used in proofs only. No axiom, parameter, functor or module type is declared in the development; no kernel check is switched off.

Axioms printed by `Print Assumptions`, theorem by theorem. The groups are: **none** = "Closed under the global context"; **R** = `ClassicalDedekindReals.sig_forall_dec` and `FunctionalExtensionality.functional_extensionality_dep`; **R2** = R and `ClassicalDedekindReals.sig_not_dec`; **R3** = R2 and `Classical_Prop.classic`. All four are axioms of Coq's standard library (they come with `Reals`, used by the float64 error analysis and by the complex slots).

| file | group | theorems |
|---|---|---|
| Props_Alias.v | none | C58_mult_by_const_any, C58_rescale |
| Props_Alias.v | R3 | C58_mult_by_const, C58_rotate, C58_mul_hoisted, C58_conjugate_mirrors, C58_conjugate_in_place_refuted, C58_mul_in_place_refuted, C58_square_in_place_zero |
| Props_Basis.v | none | C01_idset, C05_tables, C07_exactness_refuted, C07_documented_range_refuted, C08_rounding_refuted, C09_unequal_levels_refuted, C11_alpha_is_floor, C11_too_few_special_primes_panic, C40_addcrs |
| Props_Basis.v | R3 | C06_modup, C07_range, C08_moddown_floor, C09_moddown_P, C09_any_levels, C10_decomposition, C50_gamma_not_dividing_panics, C11_beta_is_ceiling, C11_crs_shape |
| Props_Circ.v | R2 | C61_encrypt, C61_decrypt |
| Props_Circ.v | R3 | C61_circuit |
| Props_Clobber.v | none | C67_in_place, C67_into, C67_new, C67_new_kept, C67_half, C67_operand_refuted |
| Props_Conc.v | none | C49_alone |
| Props_Conc.v | R3 | C49_orderly, C49_race_effect, C49_race_refuted |
| Props_Const.v | R2 | C62_held |
| Props_Const.v | R3 | C62_constants, C62_batches, C62_lr, C62_lr_toy, C62_minibatch, C62_minibatch_toy |
| Props_Data.v | none | C54_read, C54_read_iff, C55_missing_rows, C56_missing_rows, C57_nan |
| Props_Data.v | R | C54_tables, C55_labels_int, C55_programs_agree_refuted |
| Props_Data.v | R2 | C56_normalise_toy, C56_normalise_minibatch_toy |
| Props_Data.v | R3 | C55_labels, C56_rounding_toy, C56_rounding_minibatch_toy, C56_constant_column, C57_count, C57_count_clear |
| Props_Enc.v | none | C12_encrypt_decrypt, C13_decrypt, C14_partial_decryptions, C15_expand, C15_expand_without_own_id, C16_used_container, C17_decryptor_history, C51_output_domain_refuted, C65_partial_decryption_reveals_secret, C65_one_key, C65_raw_plaintext_reveals_secret |
| Props_Eval.v | none | C23_mul_plaintext, C23_panics, C24_rescale, C24_rescale_into, C25_rescale_new_zero, C26_rescale_panics, C27_key_set_ready |
| Props_Eval.v | R3 | C18_add, C18_sub, C19_add_aligned, C19_sub_aligned, C19_integer_ratio, C19_ratio_refuted, C20_history_independent, C20_history_states, C21_real, C21_rounding, C21_int, C21_other_types_give_zero, C22_complex, C22_complex_refuted, C27_mul_relin_new |
| Props_Heap.v | none | C03_copy_new, C03_programs, C03_decrypt |
| Props_HeapEv.v | none | C64_calls, C64_operands, C64_heaps |
| Props_HeapEv.v | R3 | C64_circuit |
| Props_Keys.v | none | C04_secret_key_set, C04_public_key_set, C04_conjugation_key_set, C04_relinearization_key_set, C04_rotation_key_set, C36_secret_key, C36_switching_key, C36_relinearization_key, C36_rotation_key, C36_conjugation_key, C37_rotation_key_index, C37_sparse_key_pair_panics, C39_rotation_key_zero_reveals_secret, C40_old_keys_invalid |
| Props_Keys.v | R3 | C36_public_key, C38_published_keys_reveal_errors |
| Props_LR.v | none | C44_sum_rows, C44_sum_shifts, C45_sum_columns, C45_mask, C46_training, C46_inference, C46_minibatch, C48_partition, C48_packing, C48_labels, C48_batch_size, C48_batch_size_otherwise, C48_minibatch_refuted |
| Props_LR.v | R | C46_training_reals |
| Props_LREnc.v | none | C47_levels |
| Props_LREnc.v | R2 | C46_encrypt_inputs, C46_decrypt_results |
| Props_LREnc.v | R3 | C47_shipped_lr, C47_shipped_lr_toy, C47_shipped_minibatch, C47_shipped_minibatch_toy, C46_encrypted, C46_encrypted_minibatch |
| Props_Mul.v | R3 | C27_mul_and_relin, C28_hoisted_agrees, C29_hoist_above |
| Props_Rot.v | none | C31_slots_any_ring, C31_conjugation_any_ring, C32_bijection, C32_no_stale_data, C32_automorphism, C32_unreduced_zero, C33_hoisted_panics, C35_crs_without_key, C35_missing_key, C52_conjugate_panics |
| Props_Rot.v | R2 | C31_slots, C31_conjugation |
| Props_Rot.v | R3 | C30_rotate, C33_hoisted, C33_hoisted_form, C34_conjugate, C35_default_keys |
| Props_RotUse.v | none | C60_only_powers_used, C60_shipped_setup, C60_backward_needs |
| Props_Setup.v | R3 | C53_setup, C53_program, C53_program_batch, C53_lr, C53_lr_toy, C53_lr_minibatch, C53_lr_minibatch_toy |
| Props_Size.v | R3 | C63_sizes, C63_sizes_are_the_models, C63_too_many_features, C63_pow2, C63_square |
| Props_Stats.v | none | C59_empty, C59_zero_for_equal_entries_refuted |
| Props_Stats.v | R2 | C59_value |
| Props_Stats.v | R3 | C59_rounding, C59_constant |
| Props_Unsafe.v | none | C66_const, C66_short_limbs_refuted, C66_degree_8_refuted |
| Props_Unsafe.v | R3 | C66_modup, C66_moddown, C66_moddown_P, C66_decompose |
| Props_ParamVars.v | none | C68_shared, C68_add, C68_add_total, C68_genTestParams |
| Props_Loops.v | none | C69_normalise, C69_negative, C69_rotate, C69_rotate_hoisted, C69_default_keys, C69_sums, C69_sums_refuted, C69_normalise_refuted |
| Props_DownNTT.v | R3 | C70_moddown_ntt |
| Props_Slices.v | none | C71_drop_level, C71_undone, C71_new_negative, C71_value_model |
| Props_Words.v | R3 | C72_isolated, C72_no_race, C72_mul, C72_race_iff |
| Props_AliasAdd.v | R3 | C73_add, C73_sub, C73_add_into_first, C73_add_loses_parties |
| Props_AliasAdd.v | none | C73_new |
| Props_KeyObj.v | none | C74_copy, C74_write, C74_shared, C74_renamed, C74_values, C74_zero_keys, C74_zero_switching_keys |
| Props_ExtConc.v | none | C75_objects, C75_separate, C75_race_iff, C75_shared_wrong |
| Props_Samplers.v | none | C76_key, C76_outcomes, C76_joint, C76_marginal, C76_not_thirds, C76_cut |
| Props_Util.v | none | C02_new, C02_new_ntt, C02_copy, C02_drop_level, C02_pad, C41_bit_reverse, C41_target, C41_twice, C41_diverges, C42_big_empty, C42_interface_mod, C42_interface_mod_int64, C42_int64_reduced_refuted, C43_chain, C43_rescaling_params |
| Props_Util.v | R3 | C42_scale_up, C42_scale_down, C42_modulus_reached, C42_scale_up_vec, C42_big_float, C42_big_infinite |

## 4. Simplifications and what is not modelled

Modelled: every function of `mkrlwe` and `mkckks` that is not a test, except those below, and the four programs of `lr`.

lattigo
* NTT and InvNTT are the linear maps they compute (sums over powers of psi), not the butterfly networks; `InvNTTLazy` returns an arbitrary representative below 2q.
* The samplers are explicit integer polynomials with bounds; distributions are not modelled, except that of the ternary sampler (C76). A negative zero is kept as the word q, as lattigo writes it.
* The CKKS encoder (floating-point FFT) is a function parameter of the encryptor and decryptor; what it encodes is not modelled. Theorems about slots (C31, C46) speak of the polynomials and of their values at the roots.
* `DivRoundByLastModulus` is modelled by its value in `Evaluator.v`; `Clobber.v` lets it overwrite the last limb of its operand (C67). The other models of `Rescale` (`HeapEv.v`, the circuits) do not; the repository itself rescales in place except in `RescaleNew`.
* `rlwe.Parameters` is reduced to the ring degree, the prime chains and the roots of unity. The standard deviation is not modelled.

mkrlwe, mkckks
* `BasisExt.v` processes one coefficient at a time and has no pools; `Unsafe.v` has the loops over eight words, the pools and the copy of line 487, and C66 relates the two. The y arrays of the loops are local; the tables are values.
* The unused `Baseconverter` wrappers that only forward to the modelled functions are not repeated.
* gamma is a natural number; a polynomial without limbs (Level() = -1) is treated as a panic; `DropLevel` takes levels >= 0.
* The normalisation loops of rotation indices are written as `mod`, the loops over powers of two as recursions on binary digits or lists; C69 (`Loops.v`) proves that the loops, on int64, end with these values.
* `MultByConst` in `Evaluator.v`: the loops over components and moduli are exchanged (they are independent); `Alias.v` and `Unsafe.v` have the order of the code.
* Calls whose receiver is one of the operands are modelled in `Alias.v` for MultByConst, Rescale, Rotate, Conjugate and MulAndRelin, and in `AliasAdd.v` for add and sub. MulAndRelin into an operand is refuted (C58) with operands whose component "0" is zero; what it returns for other operands is not characterised.
* Ciphertexts are values except in `Heap.v` and `HeapEv.v`, where they are objects; C03 and C64 relate the two. In `HeapEv.v` a lattigo call reads its inputs, then writes its output polynomial and nothing else; keys, hoisted forms, plaintexts and the polynomial pools are still values there. `KeyObj.v` has keys and key sets as objects, but with a PolyQP as one cell, without rotation key sets and without the hoisting pools of a RelinearizationKeySet.
* Goroutines: `Conc.v` makes the decomposition of one component and one hoisted multiplication atomic. The refutation needs no finer steps; the positive theorem C49_orderly is about schedules in which the calls with common parties do not overlap. `Words.v` (C72) makes every load and store of a pool word a step; its memory is sequentially consistent (Go promises no more than that to programs without races, and C72_race_iff says which have none), a component is decomposed in own memory and then stored word by word, and the digits are all loaded before the hoisted multiplication computes.
* int64(f) outside the range gives -2^63, as on amd64 (implementation-specific in Go); uint64(2^64 as float) is implementation-specific and excluded by hypotheses.
* Memory exhaustion is not modelled.

lr
* The float64 arithmetic that prepares the constants is ring arithmetic in `LR.v` and `LRSetup.v`, and float64 arithmetic in `LRConst.v` (C62 relates the two); splitting a CSV file into fields (RFC 4180) and `strconv.ParseFloat` are not modelled (`readData` starts from the fields, the parser is a parameter); timing and printing are not. `math.Pow(x, 2)` is x*x. The decryptions of v and beta during training are part of `LRSetup.v` (they overwrite the decryptor's plaintext). `lr_toy.go` decrypts z right after encrypting it; in the model this happens just before training.
* The error bounds of C46/C47 on ciphertexts are worst-case (a polynomial bounded by B has slots at most 2NB): they are explicit functions of the data, keys and parameters, not typical errors. The encoder is any function whose plaintext has the message's slots up to an error ez; `LREncWorld.v` gives one.
* The logarithms in `lr_minibatch.go` are exact integer logarithms in `LR.v`; `LRSize.v` has the float64 computations and C63 relates the two. math.Log2, math.Pow, math.Frexp and math.Ldexp are recalled from Go's standard library; math.Log and math.Exp are parameters (math.Log accurate to 2^-45; math.Exp is never reached).

## 5. Findings

Refutations and hazards proved about the code as it is: C07, C08, C09 (comments about exactness, ranges and rounding), C15–C17, C51 (containers and
decryptor domain), C19 (non-integer scale ratios), C21 (constants of other types become zero), C22 (complex constants), C25, C26 (rescale returning zeros or
panicking), C32 (unreduced words), C35 (missing keys), C37–C40 (key generation leaks and stale keys), C41 (divergence), C42 (unreduced
results), C48 (batch sizes), C49 (shared hoisting pool), C50, C52 (index panics), C55 (missing rows become members
of class 0; the programs disagree on non-integer labels), C56 (constant columns become NaN; panic on short files), C57 (NaN predictions never counted), C58 (in-place Conjugate; in-place MulAndRelin), C59 (NaN and overflow of StandardDeviation), C65 (a published partial decryption gives the secret key), C66 (sizes at which unsafe loops leave their arrays), C67 (RescaleNew may change its operand), C68 (a second set-up replaces the strings of the first), C69 (N = 1; bounds above 2^62), C71 (negative counts bring dropped limbs back), C73 (a sum into an operand drops the parties it does not have), C74 (a stored key can be renamed; a constructor's zero key encrypts for everybody), C75 (two goroutines with one basis extender can get wrong results), C76 (a comment gives a wrong distribution of secret keys), C60 (rotation keys generated for half the degree and never used).

## 6. Testing the theorems

`seeded/LOG.jsonl` lists edits of the model that imitate realistic bugs, the theorems that stopped proving, and theorems tightened after an edit survived.
