{"id": "C01", "title": "FFInt +, -, *, unary - are exact modular arithmetic", "statement": "With the default arithmetic backend, for every field prime p below 2^63 and all field elements a, b with values in [0,p), a+b, a-b, a*b, -a and the compound assignments are again in [0,p) and are congruent to the integer results modulo p, although they are computed with wrapping 64-bit integers and (for *) an 80-bit long double quotient.", "quantifier": "every modulus 1<=p<2^63 and every pair of canonical operands", "why_tests_cant": "2^189 (p,a,b) triples; the multiplication is wrong only if a floating-point quotient is off by two at isolated points, which no sampling finds", "anchors": ["source/FFInt.cpp: operator+=, operator-=, operator*=, operator+, operator-, operator*, mod_mul", "source/include/firefly/FFInt.hpp"]}
{"id": "C02", "title": "FFInt division is the field inverse and never divides by zero", "statement": "For prime p<2^63, a/b with b!=0 is the unique canonical c with c*b = a (mod p); a/0 is 0. The extended Euclid behind it never overflows its int64/uint64 variables for any p<2^63.", "quantifier": "every prime below 2^63 and all canonical a,b", "why_tests_cant": "signed overflow inside the loop depends on the whole remainder sequence; only a bound on all cofactors excludes it", "anchors": ["source/FFInt.cpp: operator/=, operator/, mod_inv"]}
{"id": "C03", "title": "FFInt::pow is exponentiation", "statement": "x.pow(k) for an integer k>=0 is x^k mod p; for k<0 it is (1/x)^(-k). x.pow(e) with an FFInt exponent e is x^e mod p for x!=0. The zero-base case of the FFInt-exponent overload is wrong at exactly e=p-1 (0^(p-1) evaluates to 1).", "quantifier": "every prime modulus, every base, every exponent", "why_tests_cant": "the exponent is split at p/2 and the upper half uses Fermat's little theorem; only a proof covers all exponents", "anchors": ["source/include/firefly/FFInt.hpp: FFInt::pow", "source/FFInt.cpp: FFInt::pow(const FFInt&), mod_pow"]}
{"id": "C04", "title": "FFInt constructors produce canonical field elements", "statement": "FFInt(int), FFInt(mpz_class) and FFInt(string, replacements) yield the residue of the given integer in [0,p). The integer constructor violates this for negative multiples of p and the replacement constructor for the value p itself: both store the non-canonical value p, which compares different from 0.", "quantifier": "every integer value of the source type (any size for mpz and strings) and every prime", "why_tests_cant": "the violating inputs are single points among 2^64", "anchors": ["source/include/firefly/FFInt.hpp: FFInt(const T)", "source/FFInt.cpp: FFInt(mpz_class), FFInt(const std::string&, ...)"]}
{"id": "C05", "title": "FFInt increment and decrement", "statement": "C++ users expect ++x / x++ / --x / x-- to change x by one modulo p and to return the new (old) value. The code returns x+1 resp. x-1 in both forms and never changes x.", "quantifier": "every field element of every prime field", "why_tests_cant": "existing tests never use the operators; the statement quantifies over all elements", "anchors": ["source/FFInt.cpp: operator++, operator--"]}
{"id": "C06", "title": "Decimal strings of any length are reduced exactly", "statement": "For every non-empty string of decimal digits, the string constructor of FFInt returns the decimal value of the string modulo p, no matter how many digits there are; strings with another character are rejected by an exception.", "quantifier": "all strings of all lengths", "why_tests_cant": "unbounded input length, chunk boundaries every 18 digits", "anchors": ["source/FFInt.cpp: FFInt::FFInt(const std::string&, ...), parse_longint"]}
{"id": "C07", "title": "FFIntVec arithmetic is component-wise FFInt arithmetic", "statement": "Every arithmetic operation on FFIntVec<N> returns, in each component, what FFInt arithmetic returns for the components (so evaluating a bunch of probes equals evaluating them one by one). The mixed operators FFInt - FFIntVec and FFInt / FFIntVec violate it: they compute vec - scalar and vec / scalar.", "quantifier": "every N, all component values, every prime", "why_tests_cant": "bunched and unbunched runs are compared in tests only on a few black boxes that do not use the mixed operators", "anchors": ["source/FFIntVec.cpp", "source/include/firefly/FFIntVec.hpp"]}
{"id": "C08", "title": "Chinese remaindering combines two moduli", "statement": "run_chinese_remainder((a1,m1),(a2,m2)) for coprime m1,m2>0 and a1,a2>=0 returns (a, m1*m2) with 0<=a<m1*m2, a = a1 mod m1 and a = a2 mod m2; a is the only such number.", "quantifier": "all coprime moduli of any size, all residues", "why_tests_cant": "moduli grow without bound as primes are combined", "anchors": ["source/utils.cpp: run_chinese_remainder"]}
{"id": "C09", "title": "Rational reconstruction is sound, complete and unique", "statement": "If get_rational_coef(a,p) reports success with n/d then n = a*d mod p, d>0, gcd(n,d)=1 and 2n^2<=p, 2d^2<=p. Conversely, whenever some n/d in lowest terms with 2n^2<p... within the bounds has image a, the call succeeds and returns exactly that n/d. It always terminates.", "quantifier": "all moduli p>1 and residues 0<=a<p of any size", "why_tests_cant": "the completeness half is a theorem about every continued fraction expansion", "anchors": ["source/utils.cpp: get_rational_coef"]}
{"id": "C10", "title": "MQRR rational reconstruction is sound and finds every fraction with a large enough margin", "statement": "If get_rational_coef_mqrr(u,p) reports success with n/d then n = u*d mod p, d>0 and gcd(n,d)=1; and if a fraction n/d in lowest terms has image u and |n|*d*T is sufficiently smaller than p (T the code's threshold) the call succeeds and returns it. It always terminates.", "quantifier": "all moduli and residues of any size", "why_tests_cant": "the quotient sequence is input dependent and unbounded", "anchors": ["source/utils.cpp: get_rational_coef_mqrr"]}
{"id": "C11", "title": "RationalNumber stays in lowest terms and its operators are exact", "statement": "Every RationalNumber built by the constructor with non-zero denominator, and everything obtained from such numbers by *, *=, +=, -= and unary -, has a positive denominator, coprime parts and exactly the value of the rational expression; == is equality of values; gcd is the largest rational both operands are integer multiples of. RationalNumber(0,0) and arithmetic on the default-constructed number (0/0) abort with a division by zero, n/0 with n!=0 is stored silently.", "quantifier": "all operands of any size and all operation sequences", "why_tests_cant": "unbounded integers and unbounded operation sequences", "anchors": ["source/RationalNumber.cpp"]}
{"id": "C12", "title": "Comparison functions are strict total orders", "statement": "a_grt_b is a strict total order on exponent vectors of equal length (co-lexicographic), a_eq_b is equality, a_grt_b_s orders by total degree first and is a strict total order as long as total degrees do not wrap, and Monomial < / > are converse strict orders. Hence sorting results with them is deterministic.", "quantifier": "all vectors of all lengths", "why_tests_cant": "std::sort has undefined behaviour if the comparator is not a strict weak order for even one triple", "anchors": ["source/utils.cpp: a_grt_b, a_eq_b, a_grt_b_s", "source/Monomial.cpp", "source/Polynomial.cpp: sort"]}
{"id": "C13", "title": "generate_next_permutation enumerates every 0/1 tuple exactly once", "statement": "Starting from the all-zero tuple of length n and calling generate_next_permutation until it reports no further permutation visits all 2^n tuples exactly once, ordered by number of ones and lexicographically within, and ends at the all-ones tuple.", "quantifier": "every tuple length n", "why_tests_cant": "2^n tuples for every n", "anchors": ["source/utils.cpp: generate_next_permutation"]}
{"id": "C14", "title": "generate_possible_shifts lists all candidate shifts", "statement": "For 1<=r<=32 generate_possible_shifts(r) returns every 0/1 tuple of length r other than all-ones, each exactly once, sorted by number of ones (and co-lexicographically descending for ties). It should terminate for every r; for 33..63 it loops forever and from 64 it throws.", "quantifier": "every r", "why_tests_cant": "exponential output size", "anchors": ["source/utils.cpp: generate_possible_shifts"]}
{"id": "C15", "title": "Bunch sizes never exceed the queue", "statement": "For a non-empty probe queue compute_bunch_size returns a value between 1 and min(queue length, maximal bunch size), a power of two or the maximal bunch size, and (with at least two threads, unless the maximum is hit) one bunch per thread empties the queue; compute_job_number never assigns more probes than are queued and assigns at least one per thread while probes remain. For an empty queue compute_job_number should return 0 (it underflows), and with 2^31 or more probes per thread the bunch size is 0.", "quantifier": "all uint32 queue lengths, thread counts and maximal bunch sizes", "why_tests_cant": "2^96 inputs; wrong by one only at boundaries", "anchors": ["source/utils.cpp: compute_bunch_size, compute_job_number"]}
{"id": "C16", "title": "PolynomialFF +, -, scalar * and / commute with evaluation", "statement": "For all polynomials and points, calc(a+b)=calc(a)+calc(b), calc(a-b)=calc(a)-calc(b), calc(a*c)=calc(a)*c, calc(a/c)=calc(a)/c, the in-place forms agree, and no monomial occurs twice; a coefficient cancelled by += / -= is removed.", "quantifier": "all polynomials in any number of variables over every prime field", "why_tests_cant": "unbounded numbers of terms and degrees", "anchors": ["source/PolynomialFF.cpp: operator+, operator-, operator+=, operator-=, operator*, operator/, calc"]}
{"id": "C17", "title": "PolynomialFF product", "statement": "Users expect calc(a*b)=calc(a)*calc(b). The code drops a product term whenever its monomial has already been produced, so the statement holds exactly when no two term pairs collide and is refuted by (x+1)*(x+1).", "quantifier": "all pairs of polynomials", "why_tests_cant": "collisions are data dependent", "anchors": ["source/PolynomialFF.cpp: operator*(const PolynomialFF&, const PolynomialFF&)"]}
{"id": "C18", "title": "PolynomialFF::add_shift is substitution", "statement": "For a polynomial without constant term and with exponents below p, calc(add_shift(P,s), x) = calc(P, x+s) for every x. For polynomials with a constant term the constant is dropped.", "quantifier": "all polynomials, all shift vectors, all points", "why_tests_cant": "binomial coefficients are computed by modular division; correctness needs k! invertible for all k", "anchors": ["source/PolynomialFF.cpp: add_shift, mul_shift, bin_coef"]}
{"id": "C19", "title": "homogenize and mul change exponents as documented", "statement": "After homogenize(d) (d at least the degree) every term has total degree d, calc of the result at (t,x) equals t^d*calc(P,x/t) for t != 0, and mul(i) multiplies by variable i.", "quantifier": "all polynomials and points", "why_tests_cant": "unbounded sizes", "anchors": ["source/PolynomialFF.cpp: homogenize, mul"]}
{"id": "C20", "title": "Vandermonde solver returns the interpolating coefficients", "statement": "For pairwise different non-zero nodes v_i and any right-hand sides f_1..f_n, the solver returns the unique c with sum_i c_i v_i^k = f_k for k=1..n.", "quantifier": "all sizes n, all nodes, all right-hand sides, every prime field", "why_tests_cant": "the identity is a polynomial identity in n unknowns for every n", "anchors": ["source/utils.cpp: solve_vandermonde_system", "source/PolyReconst.cpp: solve_transposed_vandermonde"]}
{"id": "C21", "title": "Gauss solver: a returned vector solves the system", "statement": "For every non-singular system solve_gauss_system returns the unique solution of A x = b, and it takes the error exit only for singular systems. The singularity test only looks at the last pivot, so for some singular systems without solution the function neither exits nor fails but returns a vector (refuted in general).", "quantifier": "all sizes, all matrices over every prime field", "why_tests_cant": "pivot patterns are data dependent", "anchors": ["source/include/firefly/DenseSolver.hpp: solve_gauss_system"]}
{"id": "C22", "title": "LU decomposition, solve, inverse and determinant are exact", "statement": "For every square matrix calc_lu_decomposition yields a permutation and factors with P A = L U; for a non-singular matrix solve_lu returns the unique solution of A x = b and calc_inverse_lu and calc_inverse return the two-sided inverse; calc_determinant_lu returns the determinant (0 for singular matrices).", "quantifier": "all sizes, all matrices", "why_tests_cant": "unbounded sizes", "anchors": ["source/include/firefly/DenseSolver.hpp: calc_lu_decomposition, solve_lu, calc_inverse_lu, calc_determinant_lu, calc_inverse"]}
{"id": "C23", "title": "Thiele interpolation reproduces every fed value", "statement": "If no inverse difference breaks down, the rational function num/den returned by get_result satisfies num(y_i) = f_i*den(y_i) at every accepted point (den non-zero at the last one), equals every rational function of matching degrees through these points, and add_point reports termination exactly if the continued fraction predicts the new value. Refuted: with a breakdown the fed values need not be taken (division by zero silently yields 0); den may vanish at a fed point; using the interpolator after termination is undefined behaviour.", "quantifier": "all sequences of points and values", "why_tests_cant": "unbounded number of points, all degrees", "anchors": ["source/FFThieleInterpolator.cpp"]}
{"id": "C24", "title": "Newton interpolation reproduces every fed value", "statement": "The univariate Newton interpolation yields a polynomial of degree below the number of used values that takes every one of them; a polynomial of degree d is recovered whenever more than d values were used and the interpolation ends after at most d+2 probes (d+1 if d is given as bound). Refuted: an accidental vanishing difference ends the interpolation early with a wrong polynomial.", "quantifier": "all numbers of points, all values", "why_tests_cant": "unbounded degree", "anchors": ["source/PolyReconst.cpp: comp_ai, construct_canonical, iterate_canonical"]}
{"id": "C25", "title": "Berlekamp-Massey finds the shortest recurrence; Ben-Or/Tiwari recovers sparse polynomials", "statement": "For any value sequence with non-zero first value the Berlekamp-Massey step never fails, the stored polynomial (constant term 1) is a linear recurrence satisfied by all fed values, and no shorter recurrence exists; success is reported only if the unchanged recurrence predicted the newest value and more than twice its length of values was fed. A polynomial with T terms is returned exactly by Ben-Or/Tiwari from any success after at least 2T probes, and at most 2T+max(1,threshold) probes are needed. Refuted: a vanishing first probe with Newton switched off is undefined behaviour; success before 2T probes can return a wrong polynomial.", "quantifier": "all sequences of field elements", "why_tests_cant": "unbounded sequences", "anchors": ["source/PolyReconst.cpp: berlekamp_massey_step"]}
{"id": "C26", "title": "Poly class arithmetic", "statement": "Poly +=, -=, *= and scalar operations are the polynomial operations on the represented polynomials (also with trailing zeros); fast_euclidean_division(a,z) returns the unique q,r with a = q*z + r and deg r < deg z for z != 0, except that the zero polynomial divided by a nonzero constant, and any division by the zero polynomial, is undefined behaviour; gcd(c,d) returns a common divisor that is a combination u*c+v*d, except gcd(0,constant), which is undefined behaviour; operations on a default-constructed (empty) Poly throw.", "quantifier": "all coefficient vectors including trailing zeros", "why_tests_cant": "unbounded degrees", "anchors": ["source/Poly.cpp"]}
{"id": "C27", "title": "Shunting-yard parsing preserves the arithmetic value", "statement": "For every list of functions of the documented language, of any nesting depth and in any allowed spelling (exponents below p-1, negative ones below 2^31, declared names of at most 16 characters, literals of 18 or more digits without leading zero), the parser constructor followed by evaluate_pre returns the values of the functions in Z/p at every point, in order. Files are split at semicolons and blanks are removed. The program exits on unmatched parentheses and on undeclared names. Refuted beyond the limits: leading zeros are octal, exponents are reduced modulo p instead of p-1, negative exponents are truncated to 32 bits, an undeclared name beginning with a digit is taken as a number, a blank in a function string leads to undefined behaviour.", "quantifier": "all expressions of any nesting depth and all variable values", "why_tests_cant": "infinitely many expressions", "anchors": ["source/ShuntingYardParser.cpp: validate, parse, evaluate"]}
{"id": "C28", "title": "Precomputed evaluation equals direct evaluation in every prime field", "statement": "For every token list on which direct evaluation returns a value, the precomputed tokens return the same value; after any number of prime changes each followed by precompute_tokens the values are those of the functions in the current field, provided no divisor is a parenthesised quotient. Refuted for x/(2/3): after a prime change the number is rebuilt from its first token only; functions added after the construction are ignored or replace all others; evaluate_pre_2 reads beyond its fixed stack.", "quantifier": "all RPN functions, all values, all sequences of prime changes", "why_tests_cant": "needs a history of prime changes and nested constant divisions", "anchors": ["source/ShuntingYardParser.cpp: precompute, precompute_tokens", "source/include/firefly/ShuntingYardParser.hpp: evaluate_pre"]}
{"id": "C29", "title": "Public evaluate() accepts what the parser accepts", "statement": "A parser that keeps the notation evaluates every function without negative exponents with evaluate() to its value. Refuted in general: with the default constructor evaluate() returns no value at all, and a negative exponent makes the program exit.", "quantifier": "all parsed functions", "why_tests_cant": "tests only use evaluate_pre", "anchors": ["source/include/firefly/ShuntingYardParser.hpp: evaluate"]}
{"id": "C30", "title": "Duplicate elimination and trimming keep the order of results", "statement": "With check_is_equal, evaluation returns one value per input function in input order, the value of a function with the same two-prime fingerprint (its own whenever equal fingerprints mean equal functions); trim(keep) returns a map under which exactly the kept functions keep their values. Refuted: distinct functions with the same fingerprint are merged, add_otf after construction is undefined, trim followed by a prime change gives wrong values, and trim with the default constructor drops everything.", "quantifier": "all lists of functions, all keep sets", "why_tests_cant": "arbitrary collections", "anchors": ["source/ShuntingYardParser.cpp: parse_collection, add_otf, trim", "source/include/firefly/ShuntingYardParser.hpp"]}
{"id": "C31", "title": "Random numbers are valid non-zero field elements", "statement": "Whatever calls were made before, every value returned by get_rand_32/get_rand_64 is in [1,p). get_rand_32 always returns; after set_seed get_rand_64 returns within 85 draws for every 63-bit modulus above 2^64/3 in every later state (the 256-bit state never becomes zero and has no cycle of length up to 81). set_seed makes both generators independent of the past and different seeds give different states. Refuted: without set_seed get_rand_64 never returns; reset() does not restart the 64-bit generator.", "quantifier": "all seeds and all lengths of the random stream", "why_tests_cant": "period 2^256", "anchors": ["source/BaseReconst.cpp"]}
{"id": "C32", "title": "Thread pool runs every task exactly once", "statement": "For every schedule and thread number, every submitted task is started at most once, in the order priority tasks (newest first) before others (oldest first), and is at any time either started, queued or removed by kill_all; no wake-up is lost: left alone the pool comes to rest after finitely many steps with every task finished; the destructor returns only when every submitted task has finished, and it does return. A pool without threads runs tasks inside the submitting call.", "quantifier": "every interleaving of any number of worker threads and submitters", "why_tests_cant": "schedules cannot be enumerated by tests", "anchors": ["source/include/firefly/ThreadPool.hpp"]}
{"id": "C33", "title": "Thread pool wait() and kill_all()", "statement": "When kill_all returns no task is queued or running; wait() returning false implies that no task is running; with one client thread neither call blocks forever. Refuted: wait() can return false while a submitted task is still queued, and with two client threads kill_all can sleep forever although all workers are idle.", "quantifier": "every interleaving", "why_tests_cant": "races", "anchors": ["source/include/firefly/ThreadPool.hpp: wait, kill_all, all_threads_idle"]}
{"id": "C34", "title": "Fed probes are processed exactly once by one thread at a time", "statement": "For every interleaving of feed() and interpolate() calls, each accepted probe is handed to the interpolation exactly once and in feed order, at most one thread interpolates an object at a time, and when all issued interpolation jobs have returned no accepted probe is left unprocessed.", "quantifier": "every interleaving of any number of threads", "why_tests_cant": "races", "anchors": ["source/RatReconst.cpp: feed, interpolate()", "source/PolyReconst.cpp: feed, interpolate()"]}
{"id": "C35", "title": "Saved vectors, numbers and file names are read back unchanged", "statement": "Exponent vectors (components below 2^31), field elements, rational numbers, file names, probes and complete object states written to a state or probe file are read back as the same values for any lengths and sizes; components of 2^31 or more and tags equal to a keyword of the file are not.", "quantifier": "all vectors, all numbers", "why_tests_cant": "unbounded values", "anchors": ["source/ParserUtils.cpp", "source/RatReconst.cpp: save_state, start_from_saved_file"]}
{"id": "C36", "title": "The built-in primes", "statement": "primes() lists 300 pairwise different numbers in strictly decreasing order, every one is prime and below 2^63, and no prime below 2^63 and above the last entry is missing ('the 300 largest 63-bit primes').", "quantifier": "the whole table and the whole interval", "why_tests_cant": "a unit test cannot certify primality or completeness", "anchors": ["source/ReconstHelper.cpp: primes"]}
{"id": "C37", "title": "Printed polynomials and Horner forms parse back to the same function", "statement": "The strings produced by to_string and generate_horner of PolynomialFF, Polynomial and RationalFunction (and by the generate_horner_ff/_rn helpers) are accepted by the function parser and evaluate to the value of the polynomial or rational function at every point; PolynomialFF::calc_n_m_1 with its cached Horner form returns the current polynomial's value with the first variable set to one, after every history of changes and evaluations. (A rational function with constant fractional denominator evaluates wrongly after a prime change, through the parser's treatment of quotients of constants.)", "quantifier": "all polynomials and rational functions, all variable names accepted by the parser, all points, all numbers of variables, all primes and (polynomials) sequences of prime changes, all histories of one object", "why_tests_cant": "unbounded sizes", "anchors": ["source/HornerGenerator.cpp", "source/PolynomialFF.cpp: to_string, generate_horner_coefs", "source/RationalFunction.cpp"]}
{"id": "C38", "title": "Every requested probe is evaluated and fed exactly once", "statement": "For every schedule, each requested probe has a unique index and is in exactly one place until it is fed; its point is always found and its result is the black-box value at that point; every function sees every finished probe exactly once; no point is requested twice in a prime; the counters of probes and jobs in flight are exact; every requested probe has a task that evaluates it; when the scheduler concludes that nothing is under way, everything requested has been fed and worked off.", "quantifier": "every interleaving of worker threads", "why_tests_cant": "races", "anchors": ["source/include/firefly/Reconstructor.hpp: run_until_done, queue_probes, get_probe, get_job, compute_probe, feed_job, interpolate_job, reset_new_prime"]}
{"id": "C39", "title": "Zero functions", "statement": "A function whose first probe is zero in each of the first three prime fields is reported as the zero function after exactly three probes; otherwise never by this rule.", "quantifier": "all probe histories", "why_tests_cant": "depends on the history over several prime fields", "anchors": ["source/RatReconst.cpp: feed"]}
{"id": "C40", "title": "A rational number is recovered from its images modulo several primes", "statement": "If n/d is in lowest terms, no prime divides d, and 2n^2 and 2d^2 are at most the product of the primes, then combining the images of n/d with run_chinese_remainder prime after prime and calling get_rational_coef on the result succeeds and returns exactly n/d.", "quantifier": "all fractions, all numbers of pairwise coprime moduli", "why_tests_cant": "the number of primes and the size of the fraction are unbounded", "anchors": ["source/utils.cpp: run_chinese_remainder, get_rational_coef", "source/RatReconst.cpp: combine_primes, rec_rat_coef"]}
{"id": "C41", "title": "The run changes the prime and ends exactly when the functions allow it", "statement": "Each function is counted at most once as done and at most once per prime as needing the next prime, never both; the prime field is changed only when every function is done or asked for the next prime, after which all unfinished functions work in the new prime with empty queues; the run ends only when every function is done.", "quantifier": "every interleaving of worker threads, any number of functions and primes", "why_tests_cant": "races between the last feeds and the status check", "anchors": ["source/include/firefly/Reconstructor.hpp: run_until_done, interpolate_job, reset_new_prime"]}
{"id": "C42", "title": "The reconstruction never deadlocks", "statement": "In every reachable state all submitted feed and interpolation jobs can finish, and unless the run has ended the worker threads can reach a point where the main thread makes progress: a wait for a probe, for jobs or for the change of the prime is never for nothing.", "quantifier": "every interleaving of worker threads", "why_tests_cant": "lost wake-ups and missing tasks show up only in rare schedules", "anchors": ["source/include/firefly/Reconstructor.hpp: run_until_done, get_probe, get_job, feed_job, interpolate_job"]}
{"id": "C43", "title": "Poly::roots returns exactly the roots with multiplicity", "statement": "Whenever roots() of a nonzero polynomial c returns, the returned list rs satisfies c = k * prod (X - r) with k != 0, for every sequence of random numbers; it never throws or leaves defined behaviour; for a polynomial of positive degree without roots in the field it never returns.", "quantifier": "all nonzero coefficient vectors, all sequences of random numbers, all running times", "why_tests_cant": "the algorithm draws from std::random_device; unbounded degrees and draws", "anchors": ["source/Poly.cpp: roots, gcd, fast_euclidean_division"]}
{"id": "C44", "title": "A crash loses at most the prime being finished", "statement": "Whenever the program is killed, every tagged function has exactly one state file, holding its data as they are or as they were before the prime being finished; a resumed run never combines the image of a prime twice. If the crash is not in one of the short windows in which a probe file is written or exchanged, ZERO is written, or the two renames of a save are between each other, the resume succeeds, every function comes back with its data, prime and status and with exactly its own stored probes of that prime. Inside these windows the guarantee fails (each shown by a history).", "quantifier": "all numbers of functions, all interleavings of the finishing, feeding and probe writing threads, all crash points, any number of crashes and resumes", "why_tests_cant": "crash points between single file operations cannot be enumerated by tests, and their damage may show only primes later", "anchors": ["source/RatReconst.cpp: feed, combine_primes, save_state, save_zero_state, write_food_to_file, start_from_saved_file, read_in_probes", "source/include/firefly/Reconstructor.hpp: resume_from_saved_state"]}
{"id": "C45", "title": "Univariate rational functions are reconstructed over the rationals, end to end", "statement": "Feeding RatReconst (one variable, default options) the values of a rational function N/D with rational coefficients, prime after prime, leads to exactly N/D (every coefficient in lowest terms, lowest denominator coefficient 1) when it reports to be done; it finishes with the first non-zero probe after the product of the used primes exceeds twice the squares of all numerators and denominators. A prime whose first value is zero is skipped and costs only that probe. A guess other than N/D passes the test at no more than deg N + deg D arguments, and a coefficient n/d with |n|+d below the prime is never fixed to something else. Refuted: a coefficient that coincides with another number modulo the first two primes gives a wrong result, or is never corrected so that no number of further probes finishes the reconstruction.", "quantifier": "all rational functions in lowest terms, all sequences of primes and probes that meet the stated conditions (none divides by zero), all iteration orders of the hash maps, any number of primes below 300", "why_tests_cant": "Coefficients, degrees, primes and arguments range over unbounded sets; the iteration order of std::unordered_map is unspecified; a wrong recognition of a coefficient depends on coincidences modulo 63-bit primes that tests never hit.", "anchors": ["source/RatReconst.cpp: feed, interpolate, combine_primes, rec_rat_coef, check_if_done, test_guess, build_homogenized_multi_gauss, solve_homogenized_multi_gauss", "source/BaseReconst.cpp: convert_to_mpz, convert_to_ffint", "source/ThieleInterpolator.cpp: add_point, get_result"]}
{"id": "C46", "title": "Multivariate polynomials are interpolated exactly over a prime field", "statement": "Feeding PolyReconst (n variables, one prime) the values of a non-zero polynomial f at the requested powers of the anchor points never fails, and whenever a result is there it is exactly f: the same monomials with the same coefficients. It is there after at most n*d*T probes, T the number of terms and d the number of values a univariate interpolation takes (D+2 for Newton, 2T+max(1,threshold) for Ben-Or/Tiwari, the minimum when both race). The result handed to RatReconst is f homogenized to the given degree. A first probe 0 gives the zero polynomial. Conditions on the anchor points: distinct powers, no coefficient of a lower stage vanishes, different monomials have different values, no early coincidence ends a univariate interpolation. At most n*T^2*(D+2)^4*|S|^(n-1) of the |S|^n vectors of anchor points drawn from a set S violate these conditions, so over the field with p elements all but a fraction n*T^2*(D+2)^4/p of the anchor vectors give exactly f. Refuted without the conditions: an anchor point that is a root gives the zero polynomial, equal anchor points give a wrong polynomial.", "quantifier": "all fields, all numbers of variables, all polynomials, all suitable anchor points, all combinations of Newton/Ben-Or-Tiwari, thresholds, known degree and bounds, all iteration orders of the hash maps, any number of probes", "why_tests_cant": "Polynomials, numbers of variables and anchor points are unbounded and the iteration order of std::unordered_map is unspecified; tests sample a few functions at random anchors where coincidences never happen.", "anchors": ["source/PolyReconst.cpp: feed, interpolate, build_and_solve_transposed_vandermonde, construct_tmp_canonical, check_for_tmp_solved_degs_for_newton, check_for_tmp_solved_degs_for_bt, berlekamp_massey_step, rootsexponents, solve_transposed_vandermonde", "source/PolynomialFF.cpp: homogenize"]}
{"id": "C47", "title": "Multivariate polynomials with rational coefficients are reconstructed over several primes", "statement": "A PolyReconst fed with the values of a polynomial f with rational coefficients (lowest terms) over one prime after another never fails, whatever coefficients vanish modulo some of the primes, and whenever it reports that it is done its result has exactly the monomials and coefficients of f. Once every numerator and denominator is at most sqrt(M/2), M the product of the primes used, the first probe of the next prime completes the reconstruction, even if the anchor points of that prime are bad. The zero polynomial is reported at the first probe of the second prime. Conditions per prime: it divides no denominator and not M, the anchor points are suitable (C46), and the single wrong guess that may exist does not take the value of f at the anchor points. Refuted without the bound: (1+p0*p1)x is reported as x and p0*p1*x as the zero polynomial.", "quantifier": "all rational polynomials of any number of variables, all sequences of primes and anchor points meeting the conditions, all configurations, all iteration orders of the hash maps", "why_tests_cant": "Coefficients and sequences of primes are unbounded; a coefficient that vanishes or a guess that coincides modulo a 63-bit prime never occurs in a test by chance.", "anchors": ["source/PolyReconst.cpp: interpolate, test_guess, get_result", "source/BaseReconst.cpp: convert_to_mpz, convert_to_ffint", "source/utils.cpp: run_chinese_remainder, get_rational_coef"]}
{"id": "C48", "title": "A rational function of several variables is recovered over one prime", "statement": "A RatReconst for n > 1 variables, fed with the values of N/D on the rays it asks for, never fails and asks only for rays of the form (t+s1, t*y2^o2+s2, ..) with bounded exponents o. After at most a stated number of probes its numerator and denominator over the first prime are exactly the terms of N and D, both times one common factor that sets the announced normalising coefficient to one: the constant of the chosen side if there is one, else a monomial alone in its total degree (denominator first), else the least monomial of the denominator. The effect of the variable shift is removed completely. Conditions: the shift cancels no homogeneous part, N/D has no common factor along the first ray, no pole is hit, the linear systems of the rays are regular, the anchor points are suitable (C46). For a given shift all but at most |Ps|*G*(n-1)*T^2*(G+2)^4*|S|^(n-2) of the |S|^(n-1) vectors of anchor points are suitable for every homogeneous part of the polynomials Ps (before and after the shift) at once.", "quantifier": "all fields, all numbers of variables, all N and D, all shifts, anchor points and sequences of points meeting the conditions, all option settings and degree bounds that fit, all iteration orders of the hash maps, all numbers of probes fed", "why_tests_cant": "Degrees, numbers of terms and variables and the iteration order of the hash maps are unbounded; the subtraction of shifted higher-degree parts interleaves with dense and sparse stages in an order that depends on the input.", "anchors": ["source/RatReconst.cpp: interpolate, feed_poly, solve_gauss, build_uni_gauss, calculate_shift_polynomials, get_rand_zi_vec", "source/PolyReconst.cpp: feed, interpolate", "source/PolynomialFF.cpp: add_shift"]}
{"id": "C49", "title": "A rational function of several variables with rational coefficients is recovered over several primes", "statement": "A RatReconst for n > 1 variables that is fed, prime after prime, with the values of N/D on the rays it asks for reports itself done only with the exact rational coefficients of N/D, normalised so that the announced coefficient of the first prime is one; until then it waits for the next prime. It ends with the first probe of one more prime once all coefficients lie within the bound of the reconstruction of rational numbers for the product of the primes used. Primes whose first value is zero are passed over; three zero first values give 0/1. Exception, proved: if the first value over the very first prime is zero and the function is not constant, the run over the next prime ends in an access out of range. Conditions: no coefficient becomes infinite over a prime, no pole is hit, the ray systems are regular, the normalising monomial is alone in its total degree, and no coincidence makes a wrong guess agree with a probe. Anchor points over the further primes only have to be non-zero and to tell the monomials of one degree apart: all but at most (n-1+T^2*D)*|S|^(n-2) of the |S|^(n-1) vectors do.", "quantifier": "all numbers of variables, all N and D with rational coefficients, all sequences of primes, anchor points, shifts and points meeting the conditions, all option settings, all iteration orders of the hash maps", "why_tests_cant": "The number of primes, terms and variables is unbounded; coefficients finish at different primes, so that the systems of later primes shrink in an order that depends on the input, and a wrong guess that passes the check at one point is a matter of coincidence no test meets.", "anchors": ["source/RatReconst.cpp: feed, interpolate, combine_primes, rec_rat_coef, test_guess, check_if_done, solve_homogenized_multi_gauss, build_homogenized_multi_gauss, add_non_solved_num, add_non_solved_den, get_result", "source/utils.cpp: run_chinese_remainder, get_rational_coef, get_rational_coef_mqrr, solve_vandermonde_system", "source/BaseReconst.cpp: convert_to_mpz, convert_to_ffint"]}
{"id": "C50", "title": "Inserting replacement rules gives the coefficients of the inserted expression", "statement": "If an expression (a sum of functions times coefficients) and tables of replacement rules in the documented format are given to AmplitudeParser, with white space and braces as the user likes, then after check_for_unreplaced_masters the reported number of basis functions is the number of different functions in the expression with every rule inserted once, get_master names each of them once, and the black box built for each of them evaluates at every point, over the first prime and after every change of the prime, to its coefficient in the inserted expression; multiplied with the basis functions and added up these coefficients give the value of the expression. Two rules for a function of the expression, or an unknown function at the start, end the program with an error.", "quantifier": "all lists of functions and variables, all expressions and tables in the format, all spellings with white space and braces, all traversal orders of the hash table, all primes below 2^63 and sequences of changes, all points", "why_tests_cant": "The text format, the number of functions, rules and tables and the traversal order are unbounded; a wrong boundary in the search for coefficients only shows for particular neighbours.", "anchors": ["source/AmplitudeParser.cpp: parse_string, parse_amplitude_string, parse_ibp_table_string, check_for_unreplaced_masters, get_unsimplified_coef, build_black_box", "ff_insert.cpp: 254-279", "examples/ff_insert"]}
{"id": "C51", "title": "The scan finds the sparsest shift that works for all functions, and the interpolation from the degrees it found is exact", "statement": "With enable_shift_scan, the shift chosen before the reconstruction shifts the variables of the first pattern, counted from fewer to more shifted variables, under which every function keeps the degrees of numerator and denominator that it has when all variables are shifted; if only the shift of all variables keeps them, all variables are shifted. The degrees and the side of normalisation remembered for each function are those of the function on the ray with this shift, and the polynomial that is normalised does not vanish at the shift. The reconstruction that follows uses these degrees in place of Thiele's interpolation and, for any function with these degrees, returns exactly the numerator and denominator of the black box after a bounded number of probes.", "quantifier": "all fields, numbers of variables, functions, anchor points, random shifts and evaluation points without division by zero, all traversal orders of hash tables; all numbers of probes", "why_tests_cant": "The number of patterns is exponential in the number of variables and the choice depends on all functions at once; the values of shift and points are random.", "anchors": ["source/include/firefly/Reconstructor.hpp: scan_for_shift", "source/RatReconst.cpp: set_zi_shift, interpolate, is_shift_working, accept_shift, build_factor_uni_gauss, solve_factor_uni_gauss"]}
{"id": "C52", "title": "Order of variables, factors, probe points and results fit together", "statement": "The order of the variables chosen by the factor scan sends each variable to one position, higher degrees first and equal degrees in their old order. Every probe is evaluated at a point whose coordinates, read in that order, are the point of the requested ray; probes are numbered 0, 1, 2, ... and no two probes of the same anchor powers share their t. The text built from the factors found is accepted by the parser, and the parser divides the probes, also after changes of the prime, by exactly the factors with which the result is completed. If the interpolated function has the values of the divided probes, the printed result evaluates to the black box at the user's point. Every function that is ready is reported by get_early_results at most once, under its own number and with its own factors, or returned by get_result; without early reporting get_result returns all functions in their order with their own factors. (After get_early_results get_result mixes up the factors: refuted.)", "quantifier": "all numbers of variables and degrees, all primes and histories of primes, all anchor points and shifts, all sequences of probe requests, all factors in one variable, all black boxes and points where the factors do not vanish, all histories of finished functions, early reports and clean-ups", "why_tests_cant": "needs every order, every factor text, every prime history and every interleaving of reports", "anchors": ["source/include/firefly/Reconstructor.hpp:1125-1195", "source/include/firefly/Reconstructor.hpp:1751-1777", "source/include/firefly/Reconstructor.hpp:1844-1875", "source/include/firefly/Reconstructor.hpp:2893-2990", "source/include/firefly/Reconstructor.hpp:3307-3416", "source/ShuntingYardParser.cpp:parse_function", "source/RationalFunction.cpp:to_string"]}
{"id": "C53", "title": "Probes computed outside are requested and taken over faithfully", "statement": "With load_precomputed_probes(): after any sequence of requests, loaded files and fed probes, requested_probes.gz can be written and lists every queued probe once, with the powers of the anchor points, t and the point of that ray; if the user replaces the point in each line by the values of the functions, the file is accepted and each (t, powers) gets the values at its own point. Every supplied probe is fed exactly once, in the order of the file, with its own t, powers and values modulo the prime. (Refuted for one variable: the empty list of powers makes the written lines unreadable, and every non-empty file is rejected with an exception. Refuted: that a supplied probe is never requested again.)", "quantifier": "all numbers of variables, primes, sequences of calls, lists of supplied probes, texts with or without trailing blank, black boxes", "why_tests_cant": "holds for every history and file; the one-variable failure concerns all files", "anchors": ["source/include/firefly/Reconstructor.hpp: load_precomputed_probes_from_file, write_requested_probes_to_file, queue_probes, get_probe, feed_job", "source/ParserUtils.cpp: parse_vector_32"]}
{"id": "C54", "title": "Variable order, factors and validation point survive a restart", "statement": "After a restart with resume_from_saved_state(): the order of the variables is changed iff it was changed before and assigns the same variables to the same positions; for every function the same factors are restored, whatever order the directory lists the files in, so that a result completed with them has the same values; the parsers by which the probes are divided are the ones used before; and the saved states are accepted by a black box iff its values at the saved point, divided by the factors, are the saved ones - a different value or a missing entry ends the program (more saved entries than functions, all others equal, read beyond the end of the results).", "quantifier": "all numbers of variables, orders, lists of factors, traversal orders of containers and directories, primes, black boxes, saved points", "why_tests_cant": "holds for every set of factors, every listing of the directory and every black box", "anchors": ["source/include/firefly/Reconstructor.hpp: scan_for_factors, start_first_runs, resume_from_saved_state", "source/ParserUtils.cpp: parse_factors, parse_factors_rf, parse_vector_32, parse_vector_FFInt"]}
{"id": "C55", "title": "A run that has nothing left to feed decides correctly, unless early results were taken", "statement": "Whenever no probe is left to be fed, the run recounts: it ends iff every function is ready, goes to the next prime field iff no function needs probes in this one (and not all are ready), fails with an exception iff some function needs probes and none asks for any, and otherwise starts at least as many probes as every such function asks for, for no other powers - whatever the counters were before. In every history without get_early_results before it the counters of finished and waiting functions are exact. After get_early_results has handed out a function this recount forgets it: the run can then never end regularly or change the prime, and fails with \"Cannot continue\" even when all functions are ready.", "quantifier": "all numbers of functions, answers of the objects, counters before the call, tables of started probes, modes, and histories of jobs, early results, prime changes and recounts", "why_tests_cant": "the recount happens only when calls were missed in an unlucky schedule; exactness is a statement about every history", "anchors": ["source/include/firefly/Reconstructor.hpp: attempt_to_continue, interpolate_job, get_early_results, clean_reconst, run_until_done, reset_new_prime"]}
{"id": "C56", "title": "A further prime of a shifted system yields every missing coefficient", "statement": "If neither numerator nor denominator of N/D (n >= 2 variables) has a constant, RatReconst shifts the variables by s. Over every prime after the first, started from the monomials whose coefficients are not yet rational numbers and from the subtraction terms of the shift known from the prime before, the object asks for probes on the rays 1, 2, ... and, fed with the values of N/D over this prime, ends the prime after finitely many probes; the residues it hands to the combination over the primes are, for numerator and denominator, exactly the coefficients of the monomials that are still missing, divided by the coefficient of the normalising monomial - the shift has disappeared - whatever the order in which the maps are traversed.", "quantifier": "all fields of the two primes, numbers of variables n >= 2, polynomials N and D without constants, shifts, anchor points and sequences of t without accidental zeros, sets of monomials already known, traversal orders of the maps", "why_tests_cant": "which degrees are solved densely or sparsely, and which contributions of the shift are subtracted, depends on the monomials, on the shift and on what is already known; a wrong residue is silently combined and only seen after further primes, if at all", "anchors": ["source/RatReconst.cpp: interpolate (914-1098: coefficients on one ray), interpolate (1099-1232: end of a ray and of the prime), set_singular_system_vars, build_homogenized_multi_gauss, solve_homogenized_multi_gauss, solve_vandermonde_system, calculate_shift_polynomials"]}
{"id": "C57", "title": "A function that needs the shift is recovered over several primes", "statement": "If no total degree of the numerator or the denominator of N/D (n >= 2 variables, rational coefficients, no constants) has a single monomial, RatReconst sets the coefficient of the least monomial of the denominator to one and keeps the shift over the further primes. Fed, prime after prime, with the values of N/D on the shifted rays it asks for, it reports itself done only with the exact rational coefficients of the normalised function; until then it waits for the next prime. It ends with the first probe of one more prime once all coefficients lie within the bound of the reconstruction of rational numbers for the product of the primes used. Primes whose first value is zero are passed over. Every prime may use its own anchor points and its own shift.", "quantifier": "all numbers of variables n >= 2, all N and D with rational coefficients and without constants, all sequences of primes, anchor points, shifts and points meeting the conditions, all option settings, all iteration orders of the hash maps", "why_tests_cant": "The number of primes, terms and variables is unbounded; coefficients finish at different primes, so the dense and sparse systems of later primes and the terms of the shift that are subtracted change from prime to prime, in an order that depends on the input and on the iteration order of the hash maps.", "anchors": ["source/RatReconst.cpp: feed (131-210), interpolate (336-400, 914-1232), combine_primes (1367-1765), set_singular_system_vars (3158-3323), check_if_done (3340-3448), rec_rat_coef, test_guess", "source/utils.cpp: run_chinese_remainder, get_rational_coef, get_rational_coef_mqrr, solve_vandermonde_system"]}
{"id": "C58", "title": "PolyReconst::get_result does not depend on hash order; RatReconst::get_result does", "statement": "The polynomial returned by PolyReconst::get_result of a finished object has exactly the reconstructed terms, in ascending order of the exponents (the last exponent counts most), so that the returned object and its text are the same whatever the iteration order of the hash map; later calls return the same. RatReconst::get_result of a finished object returns exactly the reconstructed terms and later calls return the same, but its sort is commented out: the text depends on the iteration order. Before the end, PolyReconst returns the zero polynomial and RatReconst ends the process.", "quantifier": "all sets of terms in any number of variables, all iteration orders of the hash maps, all sequences of calls, all variable names", "why_tests_cant": "The iteration order of a hash map depends on the library, the hash and the history of insertions; a test sees one order.", "anchors": ["source/Polynomial.cpp: Polynomial::Polynomial(const rn_map&), Polynomial::sort, to_string", "source/PolyReconst.cpp: get_result (536-546)", "source/RatReconst.cpp: get_result (1842-1867)"]}
