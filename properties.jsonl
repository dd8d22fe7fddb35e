{"id": "C01", "title": "IDSet is a finite set of non-reserved ids", "statement": "After any sequence of Add/Remove/Union/Intersection/CopyNew calls that did not panic, Has answers exactly the mathematical set obtained from the same operations, Size is its cardinality, and the reserved id \"0\" is never a member; Add panics exactly on \"0\".", "quantifier": "every sequence of IDSet operations on every ids, every map iteration order", "why_tests_cant": "operation histories and Go's randomised map iteration orders are unbounded", "anchors": ["mkrlwe/idset.go: IDSet.Has, Add, Remove, Size, CopyNew, Intersection, Union"]}
{"id": "C02", "title": "Ciphertext construction, id set and level agree", "statement": "NewCiphertext(params, ids, level) yields a ciphertext whose IDSet() is exactly ids, whose Level() is level, which always holds a component for \"0\", whose components are all zero, and CopyNew/DropLevelNew/PadCiphertext preserve or change exactly the documented part (pad adds zero components for missing ids only, at the ciphertext's own level).", "quantifier": "every id set, level, ciphertext", "why_tests_cant": "unbounded id sets and levels", "anchors": ["mkrlwe/elements.go: NewCiphertext, IDSet, Level, CopyNew, PadCiphertext", "mkckks/evaluator.go: DropLevel, DropLevelNew"]}
{"id": "C03", "title": "CopyNew is a deep copy", "statement": "After c2 := c.CopyNew(), no write through c2's components (and no later allocation) changes what is read through c, and vice versa; Decrypt leaves the caller's ciphertext unchanged.", "quantifier": "every heap, ciphertext object and every sequence of later writes through the copy", "why_tests_cant": "aliasing needs all later write histories", "anchors": ["mkrlwe/elements.go: CopyNew, Copy", "mkckks/elements.go: CopyNew", "mkrlwe/decryptor.go: Decrypt"]}
{"id": "C04", "title": "Key sets behave as maps", "statement": "SecretKeySet, PublicKeySet, RelinearizationKeySet, ConjugationKeySet and RotationKeySet return from Get the key added last for that id (and rotation index) and not deleted since, and Get panics exactly when there is none.", "quantifier": "every history of Add/Del on every key set", "why_tests_cant": "unbounded histories", "anchors": ["mkrlwe/keys.go: Add*/Del*/Get*"]}
{"id": "C05", "title": "Basis-extension tables are correct", "statement": "For distinct odd primes below 2^61 the precomputed tables hold, in Montgomery form, the inverse of Q/q_i modulo q_i, Q/q_i modulo p_j, and -v*Q modulo p_j for v = 0..len(Q), all reduced; the mod-down tables hold the inverse of P_0...P_j modulo q_i.", "quantifier": "every list of distinct odd primes below 2^61", "why_tests_cant": "all moduli, all 64-bit wrap-arounds", "anchors": ["mkrlwe/basis_extension.go: basisextenderparameters, genModDownParams"]}
{"id": "C06", "title": "Basis extension (ModUp) reconstructs the residue", "statement": "For every residue vector x over Q, ModUpQtoP/ModUpPtoQ return for every target prime p a word congruent modulo p to X + k*Q, where X in [0,Q) is the CRT value of x and k in {-1,0,1} is the same for all targets; if X/Q is at distance more than 2^-42 from 0 and 1 then k = 0. No table access is out of range and no uint64 wraps.", "quantifier": "every modulus list of at most 32 primes, every residue vector", "why_tests_cant": "2^60-sized inputs, float64 rounding near boundaries cannot be sampled", "anchors": ["mkrlwe/basis_extension.go: modUpExact, reconstructRNS, multSum, ModUpQtoP, ModUpPtoQ"]}
{"id": "C07", "title": "\"modUpExact\" is not always exact, nor in the documented range", "statement": "There are moduli and residue vectors for which the returned value is not congruent to the CRT value X (the float64 correction term is off by one near X = Q-1), and for which a returned word is larger than the documented maximum 2q-1; every returned word is below (c + 2)*p whenever len(Q)*max(q_i) <= c*2^64 (so below 3p for the shipped chain).", "quantifier": "existential witness plus a universal bound", "why_tests_cant": "the failing inputs form a 2^-50 fraction; the bound is over all inputs", "anchors": ["mkrlwe/basis_extension.go: modUpExact, multSum (comment: returns the values in [0, 2q-1])"]}
{"id": "C08", "title": "ModDownQPtoQ divides by P with floor, not rounding", "statement": "For X over basis QP (limbs possibly lazy in [0,2q)), ModDownQPtoQ returns limbs of (X - r)/P mod q_i where r is congruent to X modulo P with r in [-P, 2P), and r is the remainder of X by P (so the result is the floor, not the rounded quotient) unless the remainder is within float error of 0 or P; the documented rounded division fails for explicit inputs.", "quantifier": "every basis and every residue vector", "why_tests_cant": "all residues over ~1000-bit moduli", "anchors": ["mkrlwe/basis_extension.go: ModDownQPtoQ, genModDownParams"]}
{"id": "C09", "title": "ModDownQPtoP divides by Q only when levelQ = levelP", "statement": "ModDownQPtoP(levelQ, levelP, ...) returns (X - r)/Q_levelQ modulo each p_i when levelQ = levelP, and for levelQ <> levelP there are inputs for which it does not (it indexes the inverse table with levelP). For any two levels the words written, times the product of the first levelP+1 moduli of Q, are congruent to Q_levelQ times that quotient; when Q has no more than levelP moduli it panics.", "quantifier": "every level pair, every residue vector", "why_tests_cant": "needs every level combination; the function is reachable only through the exported API", "anchors": ["mkrlwe/basis_extension.go: ModDownQPtoP"]}
{"id": "C10", "title": "Gadget decomposition recombines to the input", "statement": "For every level, and every alpha and gamma with alpha = 1 or levelP < gamma*alpha, DecomposeAndSplit gives for block i one integer digit D_i, the same in every limb of Q and P, congruent to the input modulo every q_j of block i, between 0 and prod(block) up to a 2^-42 fraction; all table lookups are in range. Hence sum_i D_i*g_i = P*a modulo every q_j for the gadget g used by the key generator.", "quantifier": "every level <= max level, every alpha >= 1, gamma >= 1, every polynomial", "why_tests_cant": "all level/alpha/gamma combinations and residues", "anchors": ["mkrlwe/basis_extension.go: NewDecomposer, DecomposeAndSplit", "mkrlwe/keygen.go: GenSwitchingKey"]}
{"id": "C11", "title": "Alpha, Beta and the CRS shape are consistent", "statement": "The floating-point computation of Beta is the exact integer ceiling for all counts below 2^53, alpha*Beta(level) covers level+1 limbs and alpha*(Beta(level)-1) does not, Beta is monotone in the level, and every generated CRS and switching key has Beta(maxLevel) rows, enough for every level.", "quantifier": "every PCount, gamma, QCount, level", "why_tests_cant": "float rounding over all integers", "anchors": ["mkrlwe/params.go: NewParameters, Alpha, Beta, AddCRS", "mkrlwe/keys.go: NewSwitchingKey"]}
{"id": "C12", "title": "Encrypt then Decrypt returns message plus bounded noise", "statement": "For every party, message polynomial and sampled randomness, Decrypt(Encrypt(m, pk), {sk}) equals m + e0 + u*e + s*e1 modulo every q_i, with coefficients of the added noise bounded by B(1 + 2N); if m + noise is below Q/2 the centered result is exactly m plus that noise.", "quantifier": "every ring degree, moduli chain, plaintext, secret and sampled randomness, NTT or non-NTT containers", "why_tests_cant": "unbounded message/randomness space", "anchors": ["mkrlwe/encryptor.go: Encrypt", "mkrlwe/keygen.go: GenPublicKey", "mkrlwe/decryptor.go: Decrypt, PartialDecrypt"]}
{"id": "C13", "title": "Decrypt needs exactly the involved keys, in any order", "statement": "Decrypt's result does not depend on the iteration order of the key set nor on keys of parties outside the ciphertext; it panics exactly when some involved party's key is absent.", "quantifier": "every key set, ciphertext and iteration order", "why_tests_cant": "Go map order is random", "anchors": ["mkrlwe/decryptor.go: Decrypt"]}
{"id": "C14", "title": "Partial decryptions commute and merge to Decrypt", "statement": "Applying PartialDecrypt once per involved party, in any order, leaves only the \"0\" component and its value is the value Decrypt writes.", "quantifier": "every permutation of the involved parties", "why_tests_cant": "n! orders", "anchors": ["mkrlwe/decryptor.go: PartialDecrypt, Decrypt"]}
{"id": "C15", "title": "EncryptMsgNewExpand adds parties without changing the plaintext", "statement": "EncryptMsgNewExpand(msg, pk, ids) yields a ciphertext over exactly ids that decrypts to the same polynomial as EncryptMsgNew(msg, pk) with the same randomness; it panics exactly when pk's id is not in ids.", "quantifier": "every id set and message", "why_tests_cant": "unbounded id sets", "anchors": ["mkckks/encryptor.go: EncryptMsgNew, EncryptMsgNewExpand, EncryptMsg, EncryptPtxt"]}
{"id": "C16", "title": "Encrypting into a used ciphertext keeps foreign components", "statement": "EncryptMsg/EncryptPtxt into an existing ctOut overwrites only \"0\" and the encrypting party's component: the decryption is the new message plus the sum of the old foreign components times their secrets, so it is the message exactly when that sum vanishes.", "quantifier": "every ctOut content", "why_tests_cant": "depends on the history of ctOut", "anchors": ["mkrlwe/encryptor.go: Encrypt", "mkckks/encryptor.go: EncryptPtxt"]}
{"id": "C17", "title": "A Decryptor's output level is the minimum over its history", "statement": "A mkckks.Decryptor decodes each ciphertext at the minimum of the levels of all ciphertexts it has decrypted so far (and max level); the result of Decrypt is therefore independent of the history exactly when that minimum already is the ciphertext's level or the plaintext fits below the smaller modulus.", "quantifier": "every history of Decrypt calls", "why_tests_cant": "history dependent", "anchors": ["mkckks/decryptor.go: Decrypt", "mkrlwe/decryptor.go: Decrypt"]}
{"id": "C18", "title": "AddNew and SubNew are exact on equal scales", "statement": "AddNew/SubNew of ciphertexts of equal scale decrypt, modulo every q_i of the common level, to the sum/difference of the two decryptions, for arbitrary (overlapping, disjoint, empty) party sets; the result's parties are the union, its level the minimum, its scale the maximum.", "quantifier": "every pair of ciphertexts, party sets, secrets", "why_tests_cant": "unbounded sets of parties and coefficients", "anchors": ["mkckks/evaluator.go: AddNew, SubNew, add, sub, evaluateInPlace, newCiphertextBinary"]}
{"id": "C19", "title": "AddNew aligns scales by an integer factor only", "statement": "When scales differ, the operand with the smaller scale is multiplied by floor(ratio) (by 1 when the ratio is below 2): the decryption is op0*f0 + op1*f1 with exactly these integer factors, so the sum of the messages is represented at the returned scale iff the ratio is an integer; for ratio 1.5 it is not.", "quantifier": "every scale pair", "why_tests_cant": "real-valued scale ratios", "anchors": ["mkckks/evaluator.go: evaluateInPlace"]}
{"id": "C20", "title": "Evaluator results do not depend on its history", "statement": "AddNew/SubNew results (and those of every other method: Rescale, MulPtxtNew, MulRelinNew, MulRelinHoistedNew, RotateNew, RotateHoistedNew, ConjugateNew, HoistedForm) are the same whatever operations the same Evaluator performed before (the internal ciphertext pool, which accumulates every party ever seen, never leaks into results; neither do the key-switching pools and the hoisting pools of a key set), and operands are not modified.", "quantifier": "every history of evaluator calls", "why_tests_cant": "history dependent", "anchors": ["mkckks/evaluator.go: evaluateInPlace, ctxtPool", "mkrlwe/elements.go: PadCiphertext"]}
{"id": "C21", "title": "MultByConst with a real constant multiplies the plaintext", "statement": "MultByConst by an integer or real constant c multiplies the decryption modulo every q_i by the integer round(c*scale), scale being 1 for integral c and q_level otherwise, and multiplies the recorded scale accordingly.", "quantifier": "every ciphertext and finite constant", "why_tests_cant": "all float64 constants and coefficients", "anchors": ["mkckks/evaluator.go: MultByConst, getConstAndScale", "mkckks/utils.go: scaleUpExact"]}
{"id": "C22", "title": "MultByConst with a complex constant is not multiplication", "statement": "For constants with non-zero imaginary part MultByConst multiplies the lower and upper half of the coefficient vector by different scalars, although ciphertexts are kept in coefficient (non-NTT) form; there are ciphertexts for which the result does not decrypt to the plaintext times a + b*X^(N/2).", "quantifier": "existential witness, exact characterisation for all inputs", "why_tests_cant": "the code path is never tested with complex constants", "anchors": ["mkckks/evaluator.go: MultByConst"]}
{"id": "C23", "title": "MulPtxtNew multiplies by the encoded plaintext", "statement": "MulPtxtNew(ct, pt) decrypts to ct*pt divided (with rounding noise bounded by (1+sum |s|)/2 per dropped modulus) by the dropped moduli; parties are unchanged, scale is ct.Scale*pt.Scale divided by the dropped moduli.", "quantifier": "every ciphertext, plaintext, party set", "why_tests_cant": "unbounded", "anchors": ["mkckks/evaluator.go: MulPtxtNew, Rescale"]}
{"id": "C24", "title": "Rescale drops the right number of moduli", "statement": "When Rescale returns, the output level is the input level minus the number of divisions, the output scale is at least minScale/2 unless no division happened, dividing once more would go below minScale/2, and each component is the rounded division, so q*phase(out) = phase(in) - r with |r| <= q/2*(1 + sum of |s|_1).", "quantifier": "every level, moduli chain, float64 scale and threshold", "why_tests_cant": "all scales/levels/float comparisons", "anchors": ["mkckks/evaluator.go: Rescale"]}
{"id": "C25", "title": "RescaleNew without division returns a zero ciphertext", "statement": "If no modulus needs to be dropped, RescaleNew returns a ciphertext with the input's parties, level and scale whose components are all zero (decrypting to 0), not a copy of the input, because the copy is assigned to a local variable only.", "quantifier": "every ciphertext and threshold above twice scale/q", "why_tests_cant": "needs aliasing reasoning over all inputs", "anchors": ["mkckks/evaluator.go: Rescale (else branch), RescaleNew"]}
{"id": "C26", "title": "Rescale panics when the scale exceeds the whole modulus", "statement": "Rescale terminates for every input; it panics with an index out of range exactly when every modulus of the chain down to q_0 can be divided out while staying above minScale/2, otherwise it never panics and never reaches a negative level.", "quantifier": "every level, chain, scale, threshold", "why_tests_cant": "boundary over all float scales", "anchors": ["mkckks/evaluator.go: Rescale (loop condition order)"]}
{"id": "C27", "title": "MulRelinNew multiplies multi-key ciphertexts", "statement": "MulRelinNew(op0, op1, rlkSet) decrypts, before the final rescale and modulo every q_i, to Dec(op0)*Dec(op1) + w for an explicit integer polynomial w whose coefficients are bounded in terms of N, the number of parties, beta, the digit bound, P and the key noise; the result's parties are the union and its level the minimum.", "quantifier": "every pair of ciphertexts over every party sets, all keys generated by the key generator", "why_tests_cant": "unbounded parties/coefficients; noise growth is a universal bound", "anchors": ["mkrlwe/keyswitch.go: MulAndRelin, ExternalProduct", "mkrlwe/keyswitch_hoisted.go: MulAndRelinHoisted", "mkckks/evaluator.go: MulRelinNew, mulRelin, mulRelinHoisted", "mkrlwe/keygen.go: GenRelinearizationKey"]}
{"id": "C28", "title": "Hoisted and plain multiplication agree bit for bit", "statement": "MulAndRelinHoisted with hoisted forms computed at the output level, with nil hoisted forms, and MulAndRelin produce identical ciphertexts; squaring (op0 == op1) through the shared pool gives the same result as multiplying by an equal ciphertext.", "quantifier": "every ciphertext pair", "why_tests_cant": "bit equality over all inputs", "anchors": ["mkrlwe/keyswitch_hoisted.go: MulAndRelinHoisted, ExternalProductHoisted", "mkckks/evaluator.go: MulRelinNew, HoistedForm, MulRelinHoistedNew"]}
{"id": "C29", "title": "Hoisting at a higher level stays valid", "statement": "A hoisted form computed at a level above the multiplication level (as MulRelinNew does when operands have different levels) still recombines to the operand modulo every q_j of the lower level.", "quantifier": "every pair of levels, every alpha", "why_tests_cant": "level combinations are unbounded", "anchors": ["mkckks/evaluator.go: MulRelinNew", "mkrlwe/keyswitch.go: Decompose"]}
{"id": "C30", "title": "RotateNew applies the Galois automorphism to the plaintext", "statement": "RotateNew(ct, k, keys) decrypts to sigma_{5^k}(Dec(ct)) + w with w an explicit bounded integer polynomial, for every integer k (negative or above N/2), whether the rotation is done with a dedicated key or composed from powers of two; parties, level and scale are unchanged.", "quantifier": "every k in Z, ciphertext, party set", "why_tests_cant": "all rotation amounts and coefficients", "anchors": ["mkckks/evaluator.go: RotateNew, rotate", "mkrlwe/keyswitch.go: Rotate", "mkrlwe/keygen.go: GenRotationKey"]}
{"id": "C31", "title": "Rotation moves slots left by k", "statement": "For every evaluation point zeta with zeta^N = -1, the value of the rotated plaintext at slot j (zeta^(5^j)) is the value of the input at slot j+k mod N/2; conjugation exchanges zeta and its inverse.", "quantifier": "every commutative ring, root, polynomial, j, k", "why_tests_cant": "unbounded", "anchors": ["mkckks/evaluator.go: RotateNew, ConjugateNew"]}
{"id": "C32", "title": "The in-place coefficient permutation of Rotate is a bijection", "statement": "The permutation loop of Rotate writes every coefficient of the scratch polynomial exactly once for every odd Galois element, so no stale scratch data reaches the result; the result is the ring automorphism X -> X^galEl; coefficients are in [0,q] and the value q (unreduced zero) does occur.", "quantifier": "every N = 2^k, odd galEl, coefficients, scratch contents", "why_tests_cant": "all sizes and stale contents", "anchors": ["mkrlwe/keyswitch.go: Rotate (permute ctOut loop)", "mkrlwe/keyswitch_hoisted.go: RotateHoisted"]}
{"id": "C33", "title": "RotateHoistedNew equals RotateNew on precomputed indices", "statement": "With a hoisted form of the same ciphertext RotateHoistedNew returns exactly the ciphertext RotateNew returns when a CRS exists for the normalised index, and panics otherwise.", "quantifier": "every ciphertext and k", "why_tests_cant": "bit equality over all inputs", "anchors": ["mkrlwe/keyswitch_hoisted.go: RotateHoisted", "mkckks/evaluator.go: rotateHoisted"]}
{"id": "C34", "title": "ConjugateNew applies X -> X^(2N-1)", "statement": "ConjugateNew decrypts to the conjugate automorphism of the plaintext plus bounded noise for every party set.", "quantifier": "every ciphertext and party set", "why_tests_cant": "unbounded", "anchors": ["mkrlwe/keyswitch.go: Conjugate", "mkrlwe/keygen.go: GenConjugationKey"]}
{"id": "C35", "title": "Default rotation keys suffice for every rotation", "statement": "After GenDefaultRotationKeys for every party (with no extra CRS), RotateNew never panics for any k; an AddCRS(k) without the corresponding rotation key makes RotateNew(k) panic although the power-of-two keys would suffice.", "quantifier": "every k, every N", "why_tests_cant": "all k and N", "anchors": ["mkrlwe/keygen.go: GenDefaultRotationKeys", "mkrlwe/params.go: NewParameters", "mkckks/evaluator.go: rotate"]}
{"id": "C36", "title": "Generated keys satisfy their defining equations", "statement": "Public, relinearization, rotation, conjugation and switching keys satisfy, modulo every q_j and p_j, b = -s*a + e, d = -r*a + g*s + e, v = -s*u - g*r + e, rk = -sigma^-1(s)*a + g*s + e, cjk = -s*a + g*sigma(s) + e with the common reference strings and the sampled small errors.", "quantifier": "every secret, error and CRS", "why_tests_cant": "unbounded", "anchors": ["mkrlwe/keygen.go: GenPublicKey, GenRelinearizationKey, GenRotationKey, GenConjugationKey, GenSwitchingKey"]}
{"id": "C37", "title": "GenRotationKey checks the CRS before normalising the index", "statement": "GenRotationKey(rotidx) with negative rotidx panics with the documented message iff CRS[rotidx] is absent; but if CRS[rotidx] is present (as it always is for -1..-4, which belong to other keys) and CRS of the normalised index is absent it fails by nil dereference instead. GenKeyPairSparse always panics.", "quantifier": "every rotidx, CRS table", "why_tests_cant": "all index/CRS combinations", "anchors": ["mkrlwe/keygen.go: GenRotationKey, GenKeyPairSparse"]}
{"id": "C38", "title": "Public key plus relinearization key reveal the encryption error", "statement": "Because GenPublicKey and GenRelinearizationKey use the same CRS row with the same secret but with differently scaled fresh errors, the difference of two published polynomials is 2^64*e_b - e_pk, from which both errors, and hence a*s, are computed exactly for the shipped parameters: the published keys do not hide the secret.", "quantifier": "every secret, CRS and every errors within the sampler bound", "why_tests_cant": "universal over secrets and errors; functional tests never look at published data", "anchors": ["mkrlwe/keygen.go: GenPublicKey, GenRelinearizationKey"]}
{"id": "C39", "title": "A rotation key for index 0 reveals the secret", "statement": "GenRotationKey(0, sk) is accepted and uses the relinearization CRS: the published rotation key minus the published relinearization vector b equals gadget*s plus small error.", "quantifier": "every secret and error", "why_tests_cant": "universal over secrets", "anchors": ["mkrlwe/keygen.go: GenRotationKey, GenRelinearizationKey", "mkrlwe/params.go: NewParameters"]}
{"id": "C40", "title": "AddCRS keeps other indices and invalidates keys of an existing index", "statement": "AddCRS(k) changes no CRS other than k; when k already had a CRS, rotation keys generated before no longer satisfy their defining equation with the CRS the evaluator uses.", "quantifier": "every CRS table and k", "why_tests_cant": "history dependent", "anchors": ["mkrlwe/params.go: AddCRS"]}
{"id": "C41", "title": "Bit-reversal helpers", "statement": "SliceBitReverseInPlace* with N = 2^k moves element i to the index with the k bits of i reversed (so applying it twice is the identity) and leaves indices >= N alone; for N = 3 the loop never terminates.", "quantifier": "every k and slice", "why_tests_cant": "all sizes; non-termination cannot be tested", "anchors": ["mkckks/utils.go: SliceBitReverseInPlaceFloat64 and variants"]}
{"id": "C42", "title": "Constant reduction helpers", "statement": "scaleUpExact returns a word congruent to the rounded product modulo q, in [0,q] (q itself is reached for negative multiples); interfaceMod returns the residue for uint64 and *big.Int and is congruent but not reduced for int64; scaleUpVecExactBigFloat writes, for every precision from 53 bits, words congruent to the rounded product, in [q,2q) for negative values, writes nothing else, and encodes an infinite value as the value before it. scaleDown returns the quotient of the integer by the scale within two roundings.", "quantifier": "every value, scale, modulus", "why_tests_cant": "all words", "anchors": ["mkckks/utils.go: interfaceMod, scaleUpExact, scaleUpVecExact, scaleUpVecExactBigFloat, scaleDown"]}
{"id": "C43", "title": "Modulus-chain helpers", "statement": "genBigIntChain returns all prefix products; GenSwitchkeysRescalingParams returns P^-1 mod q_i in Montgomery form for primes q_i not dividing P.", "quantifier": "every chain", "why_tests_cant": "unbounded", "anchors": ["mkckks/utils.go: genBigIntChain, GenSwitchkeysRescalingParams"]}
{"id": "C44", "title": "SumRowVec sums each column over all rows", "statement": "For numRow a power of two and numRow*numCol slots, every slot of SumRowVec(ct) holds the sum over rows of its column; for other numRow it sums over the next power of two of cyclic shifts.", "quantifier": "every numRow = 2^a, numCol, slot vector", "why_tests_cant": "all sizes", "anchors": ["lr/lr.go: SumRowVec"]}
{"id": "C45", "title": "SumColVec fills each row with its sum", "statement": "For numCol a power of two dividing the slot count and the 0/1 mask of multiples of numCol, every slot of SumColVec(ct) holds the sum of its row.", "quantifier": "every numCol = 2^b, slot vector", "why_tests_cant": "all sizes", "anchors": ["lr/lr.go: SumColVec"]}
{"id": "C46", "title": "One training iteration is one Nesterov step", "statement": "One iteration computes beta' = v - gamma/n * sum_i (sigma3(z_i.v) - y_i) z_i and v' = (1-eta)*beta' + eta*beta in every row's feature slots, where sigma3(x) = c3 x^3 + c1 x + c0, for every data, label and parameter values; the inference expression computes sigma3(x.beta).", "quantifier": "every data matrix, labels, learning rates, c0, c1, c3 <> 0", "why_tests_cant": "real-valued data", "anchors": ["lr/lr.go: main training loop, inference", "lr/lr_minibatch.go"]}
{"id": "C47", "title": "Training never runs out of levels", "statement": "Each training iteration consumes exactly 4 levels (when every multiplication drops one modulus), so numIter iterations and the inference need 4*numIter + 3 levels; with the shipped 21-modulus chain and float64 scales, all four iterations and the inference run without panic and every multiplication drops exactly one modulus.", "quantifier": "every iteration count; all data (control flow is data independent)", "why_tests_cant": "hours of encrypted computation per run", "anchors": ["lr/lr.go: main", "mkckks/evaluator.go: Rescale, newCiphertextBinary"]}
{"id": "C48", "title": "Mini-batch packing is a partition", "statement": "The (batch, ciphertext, row) loops of the mini-batch program address every training index below numBatch*numCtPerBatch*rowsPerCt exactly once and every slot row at most once, and never write outside the slot vector.", "quantifier": "every batch configuration", "why_tests_cant": "all sizes", "anchors": ["lr/lr_minibatch.go: main (dataId computation)"]}
{"id": "C49", "title": "Sharing a RelinearizationKeySet between evaluators is unsafe", "statement": "Two MulRelinNew calls on different evaluators but one RelinearizationKeySet use the same HoistPool: every sequential schedule gives the correct products, but some interleaving of their steps gives a ciphertext different from any sequential execution.", "quantifier": "every sequential schedule; an existential interleaving", "why_tests_cant": "scheduling nondeterminism", "anchors": ["mkckks/evaluator.go: MulRelinNew", "mkrlwe/keys.go: RelinearizationKeySet.HoistPool"]}
{"id": "C50", "title": "gamma must divide the number of special primes", "statement": "If alpha = floor(len(P)/gamma) >= 2 and gamma does not divide len(P) (so levelP >= gamma*alpha), the parameters are accepted but DecomposeAndSplit panics with an index out of range for every block of at least two primes, whatever the polynomial.", "quantifier": "every chain, gamma, level, block and polynomial", "why_tests_cant": "all parameter combinations", "anchors": ["mkrlwe/basis_extension.go: NewDecomposer, DecomposeAndSplit", "mkrlwe/params.go: NewParameters, Alpha"]}
{"id": "C51", "title": "The decrypted polynomial is in the ciphertext's domain, not the plaintext's", "statement": "Decrypt documents that the output domain matches plaintext.Value.IsNTT; in fact the words are those of the ciphertext's domain while the receiver's flag is left as it was, so decrypting an NTT-form ciphertext into a coefficient-form plaintext gives words that are not the coefficients of the decryption under the flag they carry.", "quantifier": "every ciphertext and plaintext (exact behaviour); an existential counterexample to the documented claim", "why_tests_cant": "needs a semantic statement about domains", "anchors": ["mkrlwe/decryptor.go: Decrypt"]}
{"id": "C52", "title": "Conjugation below the top level panics", "statement": "Conjugate permutes with ringQ.Permute over all moduli of Q: it returns normally exactly for ciphertexts of the maximum level and panics with an index out of range for every ciphertext of a lower level.", "quantifier": "every ciphertext, level, key set", "why_tests_cant": "level dependent; tests only conjugate fresh ciphertexts", "anchors": ["mkrlwe/keyswitch.go: Conjugate", "mkckks/evaluator.go: ConjugateNew"]}
{"id": "C53", "title": "The programs run from set-up to the decrypted predictions", "statement": "A run of each of the four main functions (company identifiers, NewParameters, AddCRS for every rotation amount, key generation for all companies in any map order, encryption of the inputs, training with the decryptions it prints, prediction of any list of test points) does not panic; v and beta after every iteration are those of Nesterov's method up to explicit error bounds, the printed messages are decoded from them, and every decrypted prediction is the sigmoid polynomial at the scalar product with beta.", "quantifier": "all samples of the samplers, all map orders, any number of companies, all data, constants, test points; any parameters, and the four shipped configurations", "why_tests_cant": "quantifies over data, randomness and map orders of a program with dozens of homomorphic operations", "anchors": ["lr/lr.go: main, genTestParams", "lr/lr_toy.go: main", "lr/lr_minibatch.go: main", "lr/lr_minibatch_toy.go: main"]}
{"id": "C54", "title": "readData accepts exactly the well-formed files", "statement": "readData returns normally exactly when all rows of the CSV file have equally many fields, there are at most numData rows below the header with at most numFeature columns before the label, and every field below the header is a number; it then returns, in row i, the fields of the i-th data row padded with zeros, and the last field as its label; rows the file does not have are empty with label 0.", "quantifier": "every list of records, numData, numFeature and number parser", "why_tests_cant": "all files, including ragged, short and overlong ones", "anchors": ["lr/lr.go: readData", "lr/lr_toy.go: readData", "lr/lr_minibatch.go: readData", "lr/lr_minibatch_toy.go: readData"]}
{"id": "C55", "title": "Labels become membership of the chosen class", "statement": "After relabelling, the label of every row is 1 if the file's label equals the chosen class and 0 otherwise (lr_minibatch_toy truncates first, so every label strictly between -1 and 1 counts as class 0 and the programs disagree on 1/2). Finding: rows missing from the file become members of class 0.", "quantifier": "every label vector and class", "why_tests_cant": "all float64 labels", "anchors": ["lr/lr.go: main (labelData)", "lr/lr_toy.go: main", "lr/lr_minibatch.go: main", "lr/lr_minibatch_toy.go: main"]}
{"id": "C56", "title": "Normalisation gives mean 0 and variance 1 on the training rows", "statement": "In exact arithmetic, every column to be normalised that is not constant on the training rows gets mean 0 and variance 1 (lr_toy) or sample variance 1 (lr_minibatch_toy) on them, by an increasing affine map applied to the test rows too; the other columns are unchanged. In float64, for at most 2^20 training rows and values up to G, every entry of a column of deviation sd is within 640 m 2^-53 (G/sd)^3 of the exact one, unless sd is below sqrt(2^10 m 2^-53) G. Findings: in float64 a constant column becomes NaN; with fewer rows than numData the loop panics.", "quantifier": "every table, number of training rows and columns", "why_tests_cant": "all real tables; NaN for constant columns at every size", "anchors": ["lr/lr_toy.go: main (Normalize)", "lr/lr_minibatch_toy.go: main (Normalize)"]}
{"id": "C57", "title": "The reported number of correct predictions is right", "statement": "The count is the number of predictions on the label's side of 1/2; if the errors of the decryption and the decoder are smaller than the distance of the exact probability from 1/2, it is the count of the exact probabilities. Predictions that are NaN are never counted.", "quantifier": "every list of predictions, labels, decoder and parameters", "why_tests_cant": "all messages and error sizes", "anchors": ["lr/lr.go: main (correct)", "lr/lr_minibatch_toy.go: main (correct)"]}
{"id": "C58", "title": "Calls that write into one of their operands", "statement": "MultByConst, Rescale, Rotate (and RotateHoisted), and MulAndRelinHoisted with the hoisted form of the first operand, give the same correct result when the output ciphertext is the operand itself. Conjugate does not: its permutation overwrites coefficients before reading them, so the in-place call returns the conjugate of a mirrored ciphertext and, with valid keys and the shipped parameters, is wrong by more than 2^35 where the call into a separate ciphertext errs by at most 2^17. KeySwitcher.MulAndRelin does not either, whether the output is the first operand, the second, or both: it overwrites the components before the relinearization loops read them. With valid keys and the shipped parameters the result is off by more than 2^70 where the separate call errs by at most 2^64, and squaring in place a ciphertext whose component \"0\" is zero gives an encryption of zero with every key.", "quantifier": "every ciphertext, constant, key set, map order and pool state; existential counterexamples for conjugation and multiplication; every key set for squaring", "why_tests_cant": "aliasing of words inside the loops; tests always use the ...New variants", "anchors": ["mkckks/evaluator.go: MultByConst, Rescale, Conjugate, Rotate, RotateHoisted, MulRelinHoisted", "mkrlwe/keyswitch.go: MulAndRelin, Conjugate, Rotate", "mkrlwe/keyswitch_hoisted.go: MulAndRelinHoisted, RotateHoisted"]}
{"id": "C59", "title": "StandardDeviation computes the scaled deviation of a vector", "statement": "In exact arithmetic, for every non-empty vector, the square of StandardDeviation(vec, scale) is scale^2 times half the mean squared difference of two entries, with the sign of scale. In float64 the result is finite and within 10 sqrt(n) 2^-26 G S of the exact value (256 n 2^-53 G^2 S / deviation when that is smaller), for n <= 2^20 values up to G and scales up to S; vectors of equal integers with sum up to 2^53 give exactly zero; the empty vector gives NaN; equal finite entries can overflow to +Inf.", "quantifier": "every vector and scale", "why_tests_cant": "algebraic identity over all vectors; float64 exactness for every length", "anchors": ["mkckks/utils.go: StandardDeviation"]}
{"id": "C60", "title": "Rotation keys the programs use", "statement": "A run of each logistic-regression program depends on the rotation key set only through the keys for powers of two when there is no common reference string for the backward rotations. This is the case for the set-up of all four programs: their list of extra rotations holds the backward rotations of N/2 = 8192 while the shipped degree has N/2 = 16384, so those keys are generated and never used, and a backward rotation by 2^j needs the keys of all powers of two from 2^j to N/4 (14 - j key switches instead of one).", "quantifier": "all data, constants, iterations, key sets, map orders and states; every sampler", "why_tests_cant": "equality of whole runs for different key sets; tests cannot observe that a key is never read", "anchors": ["lr/lr.go: genTestParams, SumColVec, SumRowVec", "lr/lr_toy.go: genTestParams", "lr/lr_minibatch.go: genTestParams", "lr/lr_minibatch_toy.go: genTestParams", "mkckks/evaluator.go: RotateNew"]}
{"id": "C61", "title": "Any sequence of evaluator calls computes on complex slots", "statement": "Starting from ciphertexts that encrypt complex slot vectors, every sequence of AddNew, SubNew, MulRelinNew (squares included), MulPtxtNew, MultByConst (into a copy or in place), RotateNew, HoistedForm with RotateHoistedNew or MulRelinHoistedNew, ConjugateNew (top level), RescaleNew, Rescale in place, DropLevelNew and DropLevel whose scales and keys suit the calls runs without panic and its results encrypt exactly what the same sequence of complex operations gives, at computed levels and scales, up to a computed error; encryption makes such ciphertexts and decryption reads them.", "quantifier": "every sequence of calls, of any length; all complex slots, parties, keys, map orders and evaluator states", "why_tests_cant": "all circuits and messages, composition of errors", "anchors": ["mkckks/evaluator.go: AddNew, SubNew, MulRelinNew, MulPtxtNew, MultByConst, RotateNew, HoistedForm, RotateHoistedNew, ConjugateNew, RescaleNew, DropLevelNew", "mkckks/encryptor.go: EncryptMsgNew", "mkckks/decryptor.go: Decrypt"]}
{"id": "C62", "title": "Rounding of the constants and data packing", "statement": "The constants the logistic-regression programs compute in float64 from the learning rate, the batch size, the sigmoid coefficients, the weights and the labels are finite and within 17/2^51 * G^3 of their real values when all inputs are at most G in absolute value and c1/c3 at most G^3, and packing rows and labels into slots changes no value; so each of the four encrypted programs still computes the exact Nesterov training and prediction on the float64 inputs, with every input error larger by at most the scale times this bound.", "quantifier": "all float64 learning rates, coefficients, weights, labels and features; all keys and states", "why_tests_cant": "rounding errors over all float64 inputs, composed with a whole encrypted run", "anchors": ["lr/lr.go: main", "lr/lr_toy.go: main", "lr/lr_minibatch.go: main", "lr/lr_minibatch_toy.go: main"]}
{"id": "C63", "title": "The sizes the mini-batch programs compute in floating point are the intended integers", "statement": "lr_minibatch and lr_minibatch_toy derive from the number of features, the number of slots and the batch size, through math.Log2, math.Ceil and math.Pow in float64, how many slots a record gets, how many records a ciphertext holds and how many ciphertexts a batch takes. A record gets the least power of two of slots that holds it, the records exactly fill the ciphertext, and a batch takes the fewest ciphertexts that hold it: rounding never gives a power of two too few. With more features than slots no record fits and the number of ciphertexts becomes negative. math.Pow(2, k) is 2^k, and math.Pow(d, 2) in the normalisation is the correctly rounded square.", "quantifier": "every number of features up to 2^40, every power-of-two number of slots up to 2^40, every batch size below 2^53, and every math.Log whose quotient by ln 2 is accurate to 2^-45", "why_tests_cant": "a logarithm rounded to an integer from above would lose a slot per record only for particular feature counts; a test runs one", "anchors": ["lr/lr_minibatch.go:main", "lr/lr_minibatch_toy.go:main", "lr/lr.go:main", "lr/lr_toy.go:main"]}
{"id": "C64", "title": "Evaluator calls on objects: results are independent, operands and other objects stay as they are", "statement": "When ciphertexts are objects with memory of their own (limbs, polynomials and maps reached through pointers), every sequence of evaluator calls, returning new ciphertexts or overwriting their operand, panics exactly when the same sequence on immutable values does, and otherwise ends with objects that hold those values. The results share no memory with each other, with the operands or with the evaluator's scratch ciphertext; variables keep their objects; every object that no call overwrites, whether operand or not, reads in every component as before.", "quantifier": "every heap of independent objects, every sequence of calls of any length, all parameters, keys, scratch states and map orders", "why_tests_cant": "aliasing shows only for particular later writes; all sequences and heaps", "anchors": ["mkckks/evaluator.go: AddNew, SubNew, MulRelinNew, MulPtxtNew, RotateNew, ConjugateNew, RescaleNew, MultByConst, DropLevel", "mkrlwe/elements.go: CopyNew, PadCiphertext", "mkrlwe/keyswitch.go", "mkrlwe/keyswitch_hoisted.go"]}
{"id": "C65", "title": "A published partial decryption reveals the party's secret", "statement": "PartialDecrypt adds no noise: component \"0\" of the result minus component \"0\" of the ciphertext is exactly the party's secret times its public component, modulo every prime. Multiplying by an inverse of the public component (one exists exactly when none of its NTT values vanishes) gives the secret modulo the prime, and the ternary secret itself; one limb of the result is the same for two ternary secrets only if they are equal. In the same way all parties but one can compute the last secret from the raw polynomial that Decrypt writes.", "quantifier": "all parameters, ciphertexts in either domain, party sets, levels, limbs, secrets and map orders", "why_tests_cant": "a leak is a statement about every key and every ciphertext; functional tests pass because the decryption is exact", "anchors": ["mkrlwe/decryptor.go: PartialDecrypt, Decrypt"]}
{"id": "C66", "title": "The loops that process eight words at a time stay inside their arrays and compute every coefficient", "statement": "When polynomials are arrays of 64-bit words in one memory and the loops read and write eight consecutive words through an unchecked pointer, ModUpQtoP, ModUpPtoQ, ModDownQPtoQ, ModDownQPtoP and DecomposeAndSplit meet the specifications of C06, C08, C09 and C10 for every ring degree that is a multiple of 8, MultByConst leaves the words of C21, C22 and C58 for every degree that is a multiple of 16, in place or into another ciphertext, and no word changes outside the limbs of the output (and the extender's own pool). Both limits are needed: on limbs of four words ModUp writes past the end, and at degree 8 MultByConst writes past the limb and multiplies part of it twice, without a panic.", "quantifier": "every memory and every placement of the arrays, all degrees 8n (16n), levels, primes, words, constants and map orders", "why_tests_cant": "an overrun changes a word that belongs to some other object; it shows only for particular placements and sizes, and an unsafe pointer raises no panic", "anchors": ["mkrlwe/basis_extension.go: modUpExact, reconstructRNS, multSum, ModDownQPtoQ, ModDownQPtoP, DecomposeAndSplit", "mkckks/evaluator.go: MultByConst"]}
{"id": "C67", "title": "Rescaling tolerates a division that overwrites the last limb of its operand, except for the operand itself", "statement": "lattigo's DivRoundByLastModulus may leave anything in the last limb of its operand. Whatever it leaves, Rescale in place, Rescale into another ciphertext and RescaleNew still return the rescaled ciphertext of C24, for every pool and map order; the operand of the last two keeps its components and all limbs but the last, and a call that divides nothing leaves it unchanged. If the limb is left with (q-1)/2 added to each word, the operand decrypts as before below that limb, and in it only for secrets with (1 + sum of the secrets) times the polynomial of ones equal to 0; there is a call of RescaleNew after which the operand has another phase under every secret.", "quantifier": "every function for what is left in the limb, all ciphertexts, parties, levels, scales, thresholds, pools and map orders", "why_tests_cant": "the tests rescale in place or drop the operand after RescaleNew; a changed operand is seen only when it is used again", "anchors": ["mkckks/evaluator.go: Rescale, RescaleNew"]}
{"id": "C68", "title": "Copies of a Parameters value share their common reference strings", "statement": "In every program that makes Parameters values with NewParameters, copies them (by assignment, or into a key generator, evaluator, key set, encryptor or decryptor) and calls AddCRS on any of them, reading through a variable gives the parameters its NewParameters call made with all AddCRS calls on any copy applied in order; an AddCRS changes all copies, those taken before and after, and no value of another NewParameters call; on a zero value it panics. After genTestParams main's own variable and all objects of the context hold the same strings, and a second genTestParams on the same variable replaces the strings in the first context too (whose rotation keys for those indices are then stale, C40).", "quantifier": "all sequences of NewParameters, assignments and AddCRS, all samplers, indices and rotation lists", "why_tests_cant": "all interleavings of copies and additions; the tests make one context per parameter set", "anchors": ["mkrlwe/params.go: Parameters, NewParameters, AddCRS", "mkckks/params.go: Parameters", "lr/lr.go: genTestParams"]}
{"id": "C69", "title": "Rotation-index and doubling loops end, on int64, with the values the model uses", "statement": "For ring degree 2 to 2^62 and every int64 rotation index, the two normalising loops of rotate and rotateHoisted end after |floor(k/(N/2))| rounds in total with the residue of k modulo N/2, without overflow; the negative-only loop of the key switcher and the key generator ends with the value used there; RotateNew and RotateHoistedNew, run with their loops on int64 (including k *= 2 and rotidx /= 2), have exactly one outcome, that of the evaluator model; GenDefaultRotationKeys makes the keys for 1, 2, ..., N/4 and ends; the summing loops of the lr programs end for bounds up to 2^62. For N = 1 the normalising loop never ends; for bounds above 2^62 the doubled counter wraps to 0 and the summing loop never ends.", "quantifier": "all int64 indices, all degrees 2..2^62, all bounds, all evaluators, keys, ciphertexts and panics", "why_tests_cant": "an index near 2^63 takes 2^48 rounds; wrap-around needs bounds above 2^62", "anchors": ["mkckks/evaluator.go: rotate, rotateHoisted", "mkrlwe/keyswitch.go: Rotate", "mkrlwe/keyswitch_hoisted.go: RotateHoisted", "mkrlwe/keygen.go: GenRotationKey, GenDefaultRotationKeys", "lr/lr.go: SumRowVec, SumColVec"]}
{"id": "C70", "title": "ModDownQPtoQNTT divides by P in the NTT domain", "statement": "For admissible parameters, all levels and every integer polynomial X given by its values at the NTT points (Q part below 2q, P part reduced), and whatever representatives the lazy transforms return, ModDownQPtoQNTT succeeds, in place or not; the receiver holds the reduced values of floor(X / (p_0...p_levelP)) (up to one when the remainder is within a 2^-42 part of the ends of its range), keeps its flag and its limbs above levelQ, and the quotient is exactly the one ModDownQPtoQ computes on coefficients; the P part of the operand is left in the coefficient domain with its IsNTT flag unchanged.", "quantifier": "all parameters, levels, polynomials, receivers and lazy representatives", "why_tests_cant": "the tests use it once, on a fresh product, and only look at the noise", "anchors": ["mkrlwe/basis_extension.go: ModDownQPtoQNTT"]}
{"id": "C71", "title": "DropLevel moves a window: dropped limbs stay reachable", "statement": "With Go slices (length and capacity) and any int64 count, DropLevel succeeds exactly when the new number of limbs is not negative and within the capacity of every component, and then every component shows that many limbs of its own array; dropping k levels and then -k levels gives back the whole ciphertext, so a dropped level is not erased; DropLevelNew panics for every negative count, because a copy has no spare capacity; on ciphertexts with equally long components and counts that are not negative the outcome is that of the value model (Evaluator.v), panics included.", "quantifier": "all int64 counts, ciphertexts, capacities and map orders", "why_tests_cant": "the tests only drop levels with positive counts and never look past the length of a slice", "anchors": ["mkckks/evaluator.go: DropLevel, DropLevelNew", "mkrlwe/elements.go: CopyNew, Level"]}
{"id": "C72", "title": "Concurrent multiplications, word by word: they race exactly when they use one pool entry", "statement": "T goroutines call MulRelinNew with one RelinearizationKeySet and their own Evaluators; a step is one load or store of one uint64 of the hoisting pools. If no two calls use the same entry of the same pool (pool 0: parties of the first operand, pool 1: parties of the second operand unless the operands are the same object), then in every interleaving no goroutine panics, every returned ciphertext is the product of its operands, and every goroutine returns after enough steps of its own; two goroutines can reach a data race on a word if and only if their calls use one entry of one pool. In general, programs that store only to pairwise disjoint sets of words are where they would be alone after every schedule, and never race.", "quantifier": "all numbers of goroutines, calls, pool contents and schedules of single loads and stores", "why_tests_cant": "a test sees one schedule, and the race detector one execution", "anchors": ["mkckks/evaluator.go: MulRelinNew", "mkrlwe/keys.go: RelinearizationKeySet"]}
{"id": "C73", "title": "Sums and differences into an operand: only the receiver's parties are added", "statement": "add and sub (unexported) with a receiver that is the first operand, the second, both, or neither: if every party of the receiver is a party of an operand and the scales are positive with quotients below 2^52, the receiver ends with the aligned sum (difference) of the two operands restricted to the receiver's parties, at the minimum of the three levels, whatever the map orders and the evaluator's pools. Its scale is raised to the other operand's scale only when that one's factor is above 1, and is never set when the receiver is neither operand. So a sum into the first operand is the sum when it has all the parties; otherwise the components of the other parties are dropped without an error, and there are operands whose sum into the first one is the first one. AddNew and SubNew are these calls with a new receiver.", "quantifier": "all receivers and aliasings, ciphertexts, levels, comparable scales, map orders and pool states", "why_tests_cant": "the tests only call AddNew and SubNew; the branches of evaluateInPlace for a receiver that is an operand are never run", "anchors": ["mkckks/evaluator.go: evaluateInPlace, add, sub"]}
{"id": "C74", "title": "Keys and key sets as objects: copies are independent, sets share", "statement": "For every program that makes, copies, overwrites and renames keys and adds, gets and deletes them in key sets: CopyNew gives a key equal to the receiver (nil for nil) that keeps its value whatever is done to other keys and sets, as long as nobody writes to it or hands out its pointer, and writing to it changes no other key. A write replaces one polynomial of the object and a renaming its ID, seen by all variables that point to it and by no other. A set keeps the pointer, so the key Get returns is the added object, and the two agree after any further program. A key renamed after it was added stays under its old ID with the new ID inside, and deleting by its own ID does not remove it. Programs that change no key after making it behave as on values, panics included. The constructors give zero keys: the zero PublicKey fits every secret key, and what is encrypted with it is decrypted by the zero SecretKey, that is by anybody.", "quantifier": "all programs over key variables and key sets, all values and IDs; for the zero keys all valid parameters, plaintexts, draws, containers and map orders", "why_tests_cant": "no test calls CopyNew of a key, renames one or encrypts with a key of a constructor; the independence is over all later programs", "anchors": ["mkrlwe/keys.go: NewSecretKey, NewPublicKey, NewSwitchingKey, NewRelinearizationKey, NewRotationKey, NewConjugationKey", "mkrlwe/keys.go: SecretKey.CopyNew, PublicKey.CopyNew", "mkrlwe/keys.go: Add*, Del*, Get* of SecretKeySet, PublicKeySet and ConjugationKeySet"]}
{"id": "C75", "title": "Basis extenders and their shallow copies in goroutines", "statement": "In every program that makes and shallow-copies FastBasisExtenders, no two of them share a scratch polynomial; ShallowCopy of nil is nil, otherwise it has the receiver's tables and fresh scratch polynomials. Goroutines that call ModDownQPtoQ, ModDownQPtoP or ModDownQPtoQNTT on extenders of their own (copies included), or on one extender but on different ones of its two scratch polynomials, never race on a word, and in every interleaving of loads and stores each returns what it would return alone, panics included. Two calls that get as far as the scratch polynomial can race if and only if they use the same one, and there are an extender, calls and an interleaving with which ModDownQPtoQ returns a wrong polynomial without an error.", "quantifier": "all creation programs; any number of goroutines, all calls and operands, all schedules of single-word accesses, all initial scratch contents", "why_tests_cant": "no test calls ShallowCopy or uses an extender from two goroutines, and a schedule cannot be forced by a test", "anchors": ["mkrlwe/basis_extension.go: NewFastBasisExtender, ShallowCopy", "mkrlwe/basis_extension.go: ModDownQPtoQ, ModDownQPtoQNTT, ModDownQPtoP"]}
{"id": "C76", "title": "Ternary keys from random bits, and the cut of the errors", "statement": "For all strings of random bits GenSecretKey succeeds and gives the key of the ternary polynomial the bits spell, with no negative zero. Over all outcomes of the bits, a given ternary polynomial with z zeros comes from exactly 2^z of the 4^N outcomes, so coefficients are independent with probabilities 1/4, 1/2, 1/4; no coefficient has the probabilities 1/3 that the comment of GenSecretKey states. The default sigma is the float64 nearest to 3.2; with it int(6*sigma) in float64 arithmetic is 19, and 19 is small for each of the shipped moduli.", "quantifier": "all bit strings, all N, all ternary polynomials, all parameters within params_ok", "why_tests_cant": "a test sees a few samples and no test looks at the distribution", "anchors": ["mkrlwe/keygen.go: GenSecretKey, GenSecretKeyWithDistrib, NewKeyGenerator", "mkrlwe/encryptor.go: newEncryptorBase"]}
