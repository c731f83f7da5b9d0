{
 "C01": [
  "proved",
  "all moduli below 2^63 (x87 long double), DEFAULT backend"
 ],
 "C02": [
  "proved",
  ""
 ],
 "C03": [
  "proved",
  "FFInt-exponent overload with base 0 characterised exactly and refuted at e=p-1 (p<>3)"
 ],
 "C04": [
  "proved",
  "property as stated (incl. the two violations): violations shown by _refuted theorems"
 ],
 "C05": [
  "proved",
  "the expected behaviour is refuted for every element; what is returned is characterised"
 ],
 "C06": [
  "proved",
  "all digit strings; rejection proved for strings not starting with white space or '+'; \" -5\" is accepted (refuted)"
 ],
 "C08": [
  "proved",
  "non-negative residues; a negative first residue can give a negative result (refuted)"
 ],
 "C09": [
  "proved",
  ""
 ],
 "C10": [
  "proved",
  "completeness under an explicit margin |n|*d*(max(T,|n|,d)+2)<=p with T=1024*bits(p)"
 ],
 "C11": [
  "proved",
  "zero denominators and operator* mutating its operand shown by _refuted theorems"
 ],
 "C40": [
  "proved",
  ""
 ],
 "C12": [
  "proved",
  "equal-length vectors (a shorter second vector is read out of bounds: model result None); a_grt_b_s is a strict total order even when the uint32 degree sum wraps"
 ],
 "C13": [
  "proved",
  ""
 ],
 "C14": [
  "proved",
  "1<=r<=32; r>32 loops forever / throws (refuted)"
 ],
 "C15": [
  "proved",
  "queue/threads < 2^31; the empty queue and the 2^31 boundary are refuted"
 ],
 "C07": [
  "proved",
  "Component-wise operators, integral and vector powers, and whole expressions proved for every size; FFInt - FFIntVec, FFInt / FFIntVec and at(last) are refuted."
 ],
 "C21": [
  "proved",
  "Solution and uniqueness for every non-singular system, exit only on singular ones; for singular systems a wrong vector can be returned (refuted)."
 ],
 "C22": [
  "proved",
  "PA=LU for every matrix, solve/inverse (both algorithms) for every non-singular matrix, determinant equals the Laplace determinant for every matrix."
 ],
 "C16": [
  "proved",
  "any iteration order of the unordered_map; calc_n_m_1 for at most 50 terms (Horner shortcut: see C37)"
 ],
 "C17": [
  "proved",
  "no colliding term pairs; refuted for (x+1)^2 in every field and order"
 ],
 "C18": [
  "proved",
  "exponents below p; the constant term is dropped (characterised and refuted)"
 ],
 "C19": [
  "proved",
  "homogenize leaves n unchanged: calc on the returned object refuted; the terms themselves are right"
 ],
 "C20": [
  "proved",
  "empty system is out-of-range access"
 ],
 "C23": [
  "proved",
  "Proved when no inverse difference breaks down: every fed value is reproduced as num = f*den, completeness for every rational function of matching degrees, exact characterisation of the termination flag. Refuted without the side condition (silent division by zero), and the denominator can vanish at a fed point (x/x)."
 ],
 "C24": [
  "proved",
  "Newton session incl. degree bound: every used value reproduced, recovery of every polynomial once deg+1 values are used, termination after deg+2 probes. Recovery from fewer values (accidental zero difference) refuted."
 ],
 "C25": [
  "proved",
  "every field satisfying the FFInt laws; the vanishing first probe and the early-success case are refuted"
 ],
 "C32": [
  "proved",
  "all schedules and thread numbers; tasks that throw are not modelled"
 ],
 "C33": [
  "proved",
  "wait() as completion test and concurrent wait()/kill_all() refuted"
 ],
 "C31": [
  "proved",
  "unseeded get_rand_64 and reset() refuted; get_rand_64 returns within 85 draws for every modulus in (2^64/3,2^63)"
 ],
 "C36": [
  "proved",
  "certificates checked by Coq with primitive 63-bit integers (standard library axioms PrimInt63/Uint63); primes_128() is not used by the library and is not covered"
 ],
 "C34": [
  "proved",
  "non-empty bunches (the Reconstructor never feeds an empty one); empty bunch, the tag window at a prime change and PolyReconst stale probes are refuted"
 ],
 "C39": [
  "proved",
  "every history of events with non-empty bunches"
 ],
 "C38": [
  "proved",
  "thread-pool version without MPI, saved states and early results; functions start fresh; the effect of the interpolation on an object is: nothing, done, or next prime, chosen arbitrarily; the have-tasks and waiting theorems assume fewer than 2^31 requested probes (C15 refutes the bunch size beyond that)"
 ],
 "C41": [
  "proved",
  "same model as C38"
 ],
 "C42": [
  "proved",
  "same model as C38; possibility of progress (some schedule of the workers), below the exit at 300 primes; the thread pool itself is C32/C33"
 ],
 "C26": [
  "proved",
  "all coefficient vectors over every field satisfying the FFInt laws; the unconditional division/gcd claims are refuted (zero dividend with constant divisor, zero divisor: undefined behaviour) and proved under the exact complement. ceil(log2(double)) modelled exactly; aliased operands not modelled."
 ],
 "C43": [
  "proved",
  "partial correctness for every sequence of random numbers plus absence of exceptions/UB; non-termination proved for polynomials without roots. Termination with probability one for split polynomials is not claimed."
 ],
 "C27": [
  "proved",
  "the documented language as concrete syntax trees of any size; limits of the representation (exponent below p-1, negative exponent below 2^31, no leading zero in long literals, names of at most 16 characters) are hypotheses, each with a refutation beyond it"
 ],
 "C28": [
  "proved",
  "every token list in one prime field; the history of prime changes is proved for every tree except a single variable divided by a parenthesised quotient of numbers (nq_e), which is refuted by x/(2/3); evaluate_pre_2 is right unless a function is a lone variable or a constant quotient and overflows its stack for every function that is a single word"
 ],
 "C29": [
  "proved",
  "with the notation kept evaluate() returns the values iff no exponent is negative and exits otherwise; refuted for the default constructor (README usage) and negative exponents"
 ],
 "C30": [
  "proved",
  "with check_is_equal: one value per function, that of a function with the same fingerprint; trim for every keep set; refutations for colliding fingerprints, add_otf after construction, trim followed by a prime change, trim with the defaults"
 ],
 "C35": [
  "proved",
  "Vectors, field elements, rational numbers, file names, probe files, and the whole state file (all members, all sizes) are read back; limits proved: components >= 2^31 make std::stoi throw, a tag named like a variable of the file is lost. The numbers of the shift are drawn anew, only their zero pattern is kept. gzip compression is not modelled."
 ],
 "C37": [
  "proved",
  "polynomials and Horner forms: all primes, also across prime changes; rational functions: at the prime of parsing (no prime change), with a refutation for constant denominators after a prime change; calc_n_m_1 Horner cache for all histories"
 ],
 "C44": [
  "proved",
  "Holds for every crash point as far as the state files go; the complete statement holds outside the crash windows named by `risky` (Crash.v), and for each window a refutation shows the harm: unresumable run, stale probe file, cut line read beyond its end, nonzero function resumed as zero, probes handed to another function. Coefficient contents of a state file are C35's."
 ],
 "C45": [
  "proved",
  "Conditions on primes and arguments (no breakdown of Thiele's scheme, solvable systems, no coincidences) are hypotheses of the run (good_run in RatUniSpec.v); C45_hypotheses_met gives a run with 63-bit primes of the table that meets them."
 ],
 "C46": [
  "proved",
  "Suitable anchor points (distinct powers, no vanishing coefficient, different values of different monomials, no early coincidence) are a hypothesis; C46_hypotheses_met meets it, the refutations show what happens without it."
 ],
 "C47": [
  "proved",
  "Rational polynomials over several primes (PolyReconst on its own): C47_rational_polynomial_recovered (soundness of every run), C47_reconstruction_ends (termination once the product of the primes is large enough), C47_one_guess, C47_zero_polynomial; refutations show what goes wrong when a coefficient exceeds the product of the primes used. Hypothesis not_fooled speaks about the single possible wrong guess. Queue protocol is C34."
 ],
 "C48": [
  "proved",
  "one prime (the first); scan, skip_thiele and prime changes are not in this model; conditions on points are the record `interpolable` of RatMultiSpec.v"
 ],
 "C49": [
  "proved",
  "non-singular case (the normalising monomial is alone in its degree); scan, skip_thiele and the singular-system branch are not in this model; the claim fails when the first value over the first prime is zero and the function is not constant: C49_zero_first_value_refuted"
 ],
 "C50": [
  "proved",
  "Expressions and rules in the documented format (names of letters and digits; FUNCTION*coefficient). Refuted outside of it: a second expression or a second check_for_unreplaced_masters for one object, names of functions in coefficients, FUNCTION/x, constant terms, the longer name listed first, an empty expression."
 ],
 "C51": [
  "proved",
  "Thiele's interpolation is assumed to meet no division by zero in each round (otherwise the program draws new points); two or more variables."
 ],
 "C52": [
  "proved",
  "That the interpolated function has the values of the probes is a hypothesis here (C45-C48, C51); get_result after get_early_results pairs functions with wrong factors (refuted)."
 ],
 "C53": [
  "proved",
  "several variables: reading, histories, requests and answers; refuted for one variable (every non-empty file is rejected) and refuted: supplied probes are not requested again"
 ],
 "C54": [
  "proved",
  "order of the variables, factors (as rational functions and as parsers) and the validation point; compression and directory access by contract"
 ],
 "C55": [
  "proved",
  "Conformance of attempt_to_continue for every set of answers of the objects; counters exact for all histories without a call after get_early_results; the other histories are refuted (run cannot end, exception although all functions are ready)."
 ],
 "C56": [
  "proved",
  "One further prime of a system in which the variables are shifted. Hypotheses: the monomials still to be found and the subtraction terms known from the prime before are right (known_side: what the first prime leaves), the anchor points separate the monomials of equal degree, no probe hits a pole, the linear systems of the rays are regular (determined). The number of equations of a ray, fixed by the first prime, is taken to be the number of unknown powers of t."
 ],
 "C57": [
  "proved",
  "From the first prime on; what the first prime leaves for the next ones is computed by the model. Hypotheses: the function has no constants (when the shift is needed the side that is set to one has none; the other side may have one, which is not covered); the conditions of C48 for the first prime and, for every further prime, no pole, the same monomials after the shift, regular ray systems, separating anchor points and no coincidence that makes a wrong guess agree with a probe. Primes whose first value is zero over the very first prime: C49."
 ],
 "C58": [
  "proved",
  "Proved for PolyReconst and for the terms returned by RatReconst; the independence of the text is refuted for RatReconst (sort is commented out in lines 1854-1855)."
 ]
}