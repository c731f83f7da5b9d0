# A formal model of FireFly in Rocq/Coq 8.16.1

`/verif/rocq/theories` holds an executable Gallina model of parts of FireFly and theorems about it.
Properties are listed in `properties.jsonl`; the map property -> theorem is in `MANIFEST.json`.

## How the model is organised

* Integers of fixed width are modelled by `Z` with explicit wrap functions (`Machine.v`): `wrap64`, `sint64`, `wrap32`.
  `mpz_class` is `Z` with GMP's truncated division (`Z.quot`, `Z.rem`).
* `FFInt` values are `Z` in the raw model (`FFInt.v`); every operation is the C++ expression with every wrap written
  out.  The DEFAULT backend is modelled (FLINT/CUSTOM are not).  `mod_mul`'s `long double` is x87 80-bit
  (64-bit significand, round to nearest even), modelled exactly on integers/rationals (`LongDouble.v`).
* Templates over `FFIntTemp` (linear algebra, polynomials, interpolation) are modelled as functions over a record of
  field operations; theorems are proved for every field and then instantiated with the `FFInt` model
  (`FField.v`: canonical values of a prime field with exactly the raw operations of `FFInt.v`).
* `std::unordered_map` is a list of key/value pairs with unique keys in arbitrary order.
* Undefined behaviour, exceptions, `std::exit` are distinct results (`option`/`result` types), never default values.
* Loops are structural recursion or recursion on fuel; fuel exhaustion is a distinct result excluded by theorems.
* Threads are modelled as atomic steps between lock operations; the schedule is an arbitrary list of steps.

## Plan per property

| id | what is modelled | how it is proved |
|----|------------------|------------------|
| C01 | all FFInt operators, mod_mul with long double | rounding error analysis over Z |
| C02 | mod_inv with int64/uint64 wraps | loop invariant on cofactors, no-overflow bound |
| C03 | mod_pow, both pow overloads | induction on bits; Fermat |
| C04 | the four constructors | case analysis; refutations with witnesses |
| C05 | ++/-- | refutation for all elements |
| C06 | string constructor, parse_longint | induction on chunks |
| C07 | FFIntVec operators as list operations | pointwise; refutation of mixed operators |
| C08 | run_chinese_remainder, mpz_invert as oracle with its documented contract (also implemented) | number theory |
| C09 | get_rational_coef | Euclid invariants, uniqueness of small fractions |
| C10 | get_rational_coef_mqrr | Euclid invariants, largest-quotient argument |
| C40 | run_chinese_remainder over a list of primes, then get_rational_coef | composition of C08 and C09 by induction on the primes |
| C11 | RationalNumber | gcd algebra, comparison with Coq's Q |
| C12 | comparators | induction on vectors |
| C13 | generate_next_permutation incl. std::next_permutation on 0/1 vectors | enumeration proof |
| C14 | generate_possible_shifts | binary digits, sortedness for any correct std::sort |
| C15 | compute_bunch_size, compute_job_number on uint32 | bit lemma for floor power of two; induction |
| C16-C19 | PolynomialFF | sums over association lists |
| C20 | Vandermonde solvers | Lagrange basis identity |
| C21-C22 | DenseSolver.hpp | elimination invariants |
| C23 | ThieleInterpolator | continued fractions |
| C24 | Newton parts of PolyReconst | divided differences |
| C25 | berlekamp_massey_step | Massey's invariant |
| C26 | Poly.cpp: get_deg, shrink_to_fit, rev, +=, -=, *=, /=, fast_euclidean_division, gcd (PolyU.v) | vectors represent formal power series (Series.v, a setoid ring); Newton iteration doubles the precision of the inverse, reversal turns it into the quotient; UB refutations computed |
| C43 | Poly.cpp: roots (random numbers are an oracle list) | invariant: k * prod queue * prod (X - root) is the input; no root in the field implies no return |
| C27 | ShuntingYardParser.cpp: file constructor, validate, parse_function, precompute; ShuntingYardParser.hpp: evaluate_pre (SYParse.v, SYEval.v, SYObj.v); the language as trees with spelling and value (SYGrammar.v) | mutual induction over the syntax: validation rewrites the string to a canonical spelling, the parser emits the postfix notation of the tree, the stack machine computes the value; refutations computed |
| C28 | precompute, precompute_tokens, evaluate_pre, evaluate_pre_2 | simulation between the notation and the token machine; induction over the history of primes |
| C29 | evaluate | same stack machine; refutations computed |
| C30 | parse_collection with check_is_equal, add_otf, trim | invariant of the map fingerprint -> position; list lemmas for trim |
| C31 | pcg32, xoshiro256**, splitmix64 | bit-level invertibility |
| C32-C33 | ThreadPool as a transition system | invariants over all schedules |
| C34 | feed/interpolate protocol of RatReconst and PolyReconst objects (FeedQueue.v) | invariants over all schedules |
| C35 | ParserUtils.cpp; save_state, save_zero_state, set_tag_name, write_food_to_file, start_from_saved_file, read_in_probes of RatReconst.cpp (StateFile.v; text without compression, containers as lists in order of iteration, StateSpec.v is the specification) | decimal print/parse round trips, block by block reading of the written file |
| C36 | the table | Pocklington certificates checked in the kernel |
| C37 | Monomial/Polynomial/PolynomialFF/RationalFunction to_string and generate_horner, HornerGenerator.cpp (generate_horner_ff/_rn/_mon/_coefs), the Horner cache of PolynomialFF::calc_n_m_1 (Printers.v; PrintSpec.v is the specification: values of maps, no strings) | the printed text is shown to be the canonical spelling of a syntax tree of SYGrammar.v with the right value (three mutually used shapes: factor, term, expression), then the parser theorems of C27/C28 read it; a history invariant for the cache |
| C38, C41, C42 | the scheduler of Reconstructor.hpp (run_until_done, queue_probes, get_probe, get_job, compute_probe, feed_job, interpolate_job, reset_new_prime) as a transition system, one event per critical section (Reconst.v) | inductive invariants over all schedules; progress by a decreasing measure |
| C44 | the files of the save mechanism, one action per open/close/rename/append, two threads per function, crashes between any two actions, resume by file counting (Crash.v) | inductive invariant over phases, once for all crash points and once for those outside the windows; concrete histories refute the rest |
| C39 | zero rule of RatReconst::feed (FeedQueue.v) | invariants over all histories |
| C45 | RatReconst for n = 1 from the first probe to the result: Thiele phase, normalisation, combine_primes, rec_rat_coef, check_if_done, test_guess, the linear systems of later primes (RatUni.v; the queue protocol is C34, files C35/C44) | invariant between primes (fixed terms + residues modulo the product), reusing the theorems on the Gauss solver, Thiele (C23), CRT (C08) and rational reconstruction (C09, C10); polynomial identity argument for wrong guesses; concrete runs for the refutations |
| C46 | PolyReconst for n variables over one prime: feed/interpolate with every stage (Newton and Ben-Or/Tiwari race), subtraction of known terms, transposed Vandermonde systems, filing of solved degrees, combination, homogenized result (PolyRec.v; PolyRecSpec.v and PolyRecRunSpec.v are the specification; the queue protocol is C34; several primes are C47) | stage invariant: solved + pending terms are the coefficients of f as a polynomial of the first variables; reuses C20, C24, C25; a measure bounds the number of probes. Exceptional anchor points are counted (AnchorLead, AnchorFew, AnchorTerms, AnchorMain, Props_Anchors): each condition is a non-zero polynomial in one anchor once the others are fixed (determinants of Newton and Hankel systems, differences of monomials), so it has few roots |
| C47 | PolyReconst on its own over several primes: guess and test at the first probe of a prime, combination of the polynomials of the primes including missing monomials (PolyRat.v over PolyRec.v; PolyRatSpec.v is the specification) | invariant between primes: combined residues of f modulo the product, a missing monomial has residue 0; C46 for each prime, C09-C11 for the residues; the guess is unique, so a passed test can only be f |
| C48 | RatReconst for n > 1 variables over the first prime: Thiele's interpolation on the first ray, the linear systems of the further rays, one PolyReconst per power of t, subtraction of what the shift adds to lower degrees, choice of the normalising coefficient, what is kept for the further primes of shifted systems (RatMulti.v over PolyRec.v; RatMultiSpec.v and RatMultiRunSpec.v are the specification). Not modelled: scan and skip_thiele, further primes (C49), probes out of order (C34), zero first probe (C39) | invariants of each side (known layers of the translated polynomial, what is already subtracted), reusing C46 for every layer, C18 for add_shift, C21 for the solver, C23 for the first ray; a weight bounds the number of probes |
| C49 | RatReconst for n > 1 variables over several primes: the zero rule of feed, test of the guess at the first probe, the reduced linear systems of the homogeneous parts that are not yet known, transposed Vandermonde systems per degree, combine_primes, rec_rat_coef, check_if_done (RatMultiQ.v over RatMulti.v; RatMultiQSpec.v is the specification). Not modelled: the singular-system branch (normalising monomial not alone in its degree, or shift still needed), scan and skip_thiele | invariant between primes (known terms + residues modulo the product of the rest), C48 for the first prime, C20/C21 for the systems, C08-C11 for the residues; a passed test can only be the function because wrong guesses are excluded by the condition ls_misled |
| C50 | class AmplitudeParser and the calls of ff_insert.cpp:254-279: removal of white space and braces, the search for functions and their coefficients, rules, the maps from functions to basis functions, the text of a coefficient, the black box (Amplitude.v over the parser model SYObj.v; AmplitudeSpec.v is the specification). Not modelled: messages, skip_functions, merging and output of ff_insert | the text of a sum is parsed back (induction over summands and rules), invariant of the maps, the text of a coefficient is the spelling of a tree whose value is the coefficient after insertion; C28 for its evaluation over all primes |
| C51 | scan_for_shift with the loop over patterns (Reconstructor.hpp:1198-1287), set_zi_shift, the branch of interpolate for the scan, is_shift_working; build_factor_uni_gauss, solve_factor_uni_gauss and the run that starts from known degrees (Scan.v; ScanSpec.v is the specification: patterns in the order of the search, fractions in lowest terms on the ray). Not modelled: the files ff_save/scan and the state accept_shift writes; the random numbers are arbitrary | C13 for the order of the patterns, C47 for every round (Thiele's interpolation is exact), induction over the rounds; the degrees do not fall only if the announced side does not vanish at the shift; for known degrees the rows are the equations of the first ray (determined system, C04) and the rest is C48 |
| C52 | order of the variables, points of the probes (queue_probes), text and parser of the found factors, division of the probes, get_result/get_early_results/clean_reconst (`Results.v`, vocabulary `ResultsSpec.v`) | stable sort by insertion; invariant of the queue; the factor text is an expression of the grammar whose divisor contains a letter (no quotient of numbers), so that C05/C37 apply for all primes; event induction for the reports; `get_result` after `get_early_results` refuted |
| C53 | Precomp.v: files of supplied and requested probes, index_map, queue, feeding | texts as character lists; invariant over all histories of queue/load/feed; round trip of requests and answers; `_refuted` for one variable and for repetitions |
| C54 | FactorFiles.v: writing and reading of var_order.gz, factors_rf/*.gz, factors/*.gz, validation.gz (Reconstructor.hpp:560-668, 1783-1917, 2146-2203; ParserUtils.cpp:80-209) | state machine over the lines of a file; lines are never keywords; permutation of the directory listing; the printed factor has no line break; entrywise division equals compute_probe |
| C55 | Continue.v: attempt_to_continue (Reconstructor.hpp:3480-3715) over arbitrary answers of the objects, and the counters items_done / items_new_prime over histories (3120-3136, 3284-3296, 1162-1195, 2409, 3307-3323) | invariant: the table of started probes holds the positive sums of the queued ones; tallies of ready/waiting entries; invariant of the counters over histories; a second invariant (done + waiting + open entries < items) for the refutation |
| C56 | RatSing.v: a further prime of a shifted system: set_singular_system_vars (RatReconst.cpp:3158-3318), build_homogenized_multi_gauss / solve_homogenized_multi_gauss (2216-2283, 2032-2054), one ray (914-1098), end of the prime (1099-1232); combine_primes itself is C47 | RatSingSub (the subtraction terms are the homogeneous layers of P(x+s)), RatSingSide (invariant of one side: values on rays, dense parts, sparse parts from the highest degree down), RatSingRays (the linear system of a ray has the true coefficients as its only solution), RatSingStart (what the start puts into the tables), RatSingSum (the final sum is P); shifted_max_num_eqn (846) is taken to be the number of unknown powers |
| C57 | RatSingRun.v over RatSing.v and RatMultiQ.v: the loop over the primes for shifted systems: zero rule of feed, test of the guess at the first probe (with the shift), the prime of C56, combine_primes with what it returns, the terms of the shift handed to the next prime (RatSingRunSpec.v is the specification). functions with a constant are not covered | C48 for the first prime (C48_what_the_first_prime_leaves: the degrees, the number of unknowns and the terms of the shift in its result), the invariant of C49 for the coefficients, C56 for every further prime; RatSingNext shows that the terms of the shift over one prime name the monomials and the powers of t of the next (what C56 asks for) Concrete case in Props_RatSingRunEx.v: (2 x + 3 y) / (x - 2 y) over 101, 107 and 113; all hypotheses of both theorems are shown for it. |
| C58 | PolySort.v: Polynomial(rn_map), sort, PolyReconst::get_result, RatReconst::get_result; a map is a list of terms in an arbitrary iteration order. There is exactly one ascending arrangement of the terms (so the choice of sorting algorithm does not matter); refuted for the text of RatReconst, whose sort is commented out. |

## Trusted base

* Coq 8.16.1's kernel, including its `vm_compute` conversion and (C36, one C37 refutation and two C45 refutations only) its primitive 63-bit integers.
* The faithfulness of the hand-written model to the C++ source (each definition cites file and lines).
* Where a theorem is about code calling GMP, libstdc++ or the operating system, the documented contract of that call as
  written in the model (`mpz_invert`, `mpz_fdiv`, `std::sort`, `std::next_permutation`, mutexes, condition variables).

### Print Assumptions

Every theorem in `MANIFEST.json` is followed by `Print Assumptions` in its `Props_*.v` file.

* All theorems except four of C36, one of C37 and two of C45: `Closed under the global context`.
* `C36_every_entry_is_prime`, `C36_the_largest_63_bit_primes`, `C36_field_for_every_entry`,
  `C36_rational_number_recovered_from_the_first_primes`, `C37_constant_denominator_prime_change_refuted` and the two
  refutations of C45 (they need that the first table entries are prime): the standard library's primitive integers
  (`Coq.Numbers.Cyclic.Int63.PrimInt63`: int, sub, mulc, ltb, leb, eqb, land, lor, lsl, lsr, div, mod, diveucl_21) and
  their specification axioms (`Coq.Numbers.Cyclic.Int63.Uint63`: sub_spec, mulc_spec, ltb_spec, leb_spec, eqb_correct,
  eqb_refl, div_spec, mod_spec, diveucl_21_spec, of_to_Z). Nothing else.
* `coqchk` also lists `Coq.ssr.ssrunder.Under_rel.*` (7 entries): they are the opaque module fields of the standard
  library's ssreflect plugin support, loaded with `lia`/`ssreflect` files, and no theorem here depends on them.

### Not modelled

* FLINT/CUSTOM backends; MPI (`MPIWorker.hpp`, the MPI parts of `Reconstructor.hpp` and `ThreadPool.hpp`); `Logger.hpp`,
  terminal and log output; `tinydir`, `gzstream`; floating point except `mod_mul`'s `long double`; performance and memory
  use; the C++ memory model below sequential consistency of lock-protected sections.
* `Reconstructor.hpp`: files of the scan for shifts (1289-1340), the scan for factors itself (1343-1750, needs FLINT; what is done with its factors is C52), scheduling of
  bunches beyond C15/C38/C41/C42, printing of the status.
* `RatReconst.cpp`: shifted systems whose numerator or denominator has a constant (C56 and C57 exclude them); `accept_shift`'s files, reading of intermediate states of several variables beyond C35/C44.
  Noted while modelling: the denominator's degree-0 block (1072-1092) stands inside the loop over the degrees and is skipped by its `continue`, the numerator's (978-1000) behind the loop; in a singular system degree 0 is empty before the shift, and C56 shows that the difference does not matter.
* `ff_insert.cpp` and `firefly.cpp` apart from the calls named under C50; `FFIntVec` sizes other than those of C07;
  `UintHasher.hpp` (hash values only decide the order of traversal, which is arbitrary in the model).
