# Design: a Rocq model of rust-eth-kzg

Source under study: crate-crypto/rust-eth-kzg, read as text in `/repo`. Nothing is built or run.
The properties are in `properties.jsonl` (C01, C02, ...). The development is in `rocq/theories`
(logical name `Verif`), the claim-to-theorem table in `MANIFEST.json`, the mutation log in
`seeded/LOG.jsonl`.

## 1. How the code is modelled

* **Function by function.** Each Rust function becomes a total computable Gallina function of the same
  name (or `rs_`/`fk20_`-style prefix). The comment above each definition cites file and lines.
* **Panics.** `outcome A := Ret a | Panic`. Every `assert!`, `expect`, `unwrap`, slice index, failed
  `invert`, integer underflow and division by zero that the code can reach is a `Panic` branch.
  `Result` is `result A E := Ok a | Err e` inside `Ret`. There are no totalised defaults on these paths.
* **Loops** that mutate an array become folds over the same index sequence with list updates
  (`fft_inplace`, `reverse_bit_order`, batch inversion, batch addition), so that order of writes is kept.
* **Integers.** Sizes and indices that stay far below 2^64 are `nat`. Wire integers (`u64` indices,
  `jlong`, `BigInt`, bytes) are `N`/`Z` with explicit bounds and explicit wrap where the code wraps.
* **Field.** The algebra is written once over an arbitrary `F : fieldType` (mathcomp). `ZField.v` builds
  the field Z/p for a prime p from canonical integers; `Fr.v` instantiates it with the BLS12-381 scalar
  modulus r (primality proved by a Pocklington certificate) with generator 7 and two-adicity 32.
  Small primes instantiate the same code for computed examples.
* **Groups.** G1 and G2 are arbitrary F-modules (`lmodType F`), which is what a group of prime order r
  is. The pairing is any bilinear map into an F-module that is non-degenerate at the generators. The
  instance G1 = G2 = GT = F shows that the assumptions are satisfiable.
  blst's known behaviour that a multi-exponentiation containing the identity returns the identity is
  modelled (`multi_exp`), because `lincomb.rs` exists to work around it.
* **Curve coordinates** occur only in `batch_addition.rs`. They are modelled as pairs over a base field
  with the real chord/tangent formulas, (0,0) being the identity's coordinates as in blst. The relation
  to the group law is a hypothesis record (`curve_coords` in `SpecMSM.v`), with two proved instances: an
  elliptic curve over the field with 17 elements (`ExMSM.v`) and, for every field, the smooth points of
  y^2 = x^3 (`Cusp.v`).
* **External code.** blst point compression/decompression, sha256, serde_json and the JNI/napi/P-Invoke
  runtimes are `Section` variables with the laws stated in the theorems that use them:
  decompress(compress P) = Some P, compress P has 48 bytes. sha256 is an arbitrary function to bytes;
  no property of it is assumed.
* **Rayon.** A parallel map is modelled as a pool of workers writing into result slots in an arbitrary
  order (a small-step relation), refined to the sequential map.
* **Bindings.** C, Java, Node, Go, C# and Nim layers are state machines over a heap of live/freed allocations
  and caller buffers, with the Rust API as a parameter.

### Sizes
The EIP-7594 constants (4096, 8192, 64, 128) are powers of two given as `2^k`; the proofs are done for
general sizes and instantiated.

## 2. Specification side
Properties are stated against mathcomp polynomials `{poly F}`, sums, permutations, and a
few short definitions in `Spec.v` (bit reversal, roots of unity, big-endian value of a byte list,
commitment `f(tau) *: G`). The statements do not mention FFTs, Toeplitz matrices and so on unless the
property is about these functions.

## 3. Plan per property
| id | model | proof |
|---|---|---|
| C01 | whole prover path, bytes to bytes | C02 restricted to even exponents + interpolation + serialization round trip |
| C02 | same | FFT theorem (C26) + bit reversal (C29), uniqueness of interpolation |
| C03 | FK20 prover | Toeplitz theorem (C34), coefficients of h as column sums, evaluation of h at coset powers equals quotient at tau |
| C04 | commit path | linear combination theorem (C25) and IFFT theorem |
| C05 | deserialization of blobs | byte arithmetic; first failing chunk by induction |
| C06 | recovery path | C35 + C32 + uniqueness of interpolation |
| C07 | recovery path | C32 (exact characterisation of Ok) |
| C08 | validation functions | case analysis in code order; pigeonhole for the unreachable error |
| C09 | recovery path | corollary of C07 and uniqueness |
| C10 | verification path | C03 + C11: every defect is zero |
| C11 | verification path with arbitrary hash | algebra: weights, powers of r, bilinearity |
| C12 | same | C11 with n = 1; division in the module |
| C13 | same | defects are coefficients of a polynomial with at most n-1 roots |
| C14 | validation and decoding order | case analysis |
| C15 | deduplicate_with_indices | induction with invariant on the accumulator |
| C16 | transcript bytes | fixed-width fields, induction on the batch |
| C17 | error types of all calls | case analysis over outcome theorems |
| C18 | outcome models of all calls | every Panic branch excluded |
| C19 | recovery + verification | C03/C07/C10 composed |
| C20 | small-step worker pool (`Rayon.v`); the context and the two calls with parallel sections as relations (`RayonApi.v`) | invariant over steps, decreasing measure, progress, for any number of workers (`RayonProofs.v`) |
| C21 | window MSM (`FixedBaseMSM.v`, `FrMsm.v`), contexts with and without tables | C22 + C23 + Horner (`MSMProofs.v`); the 128 multiplications of the prover are spelled out in `SpecTables.v`; the two contexts give the same results (`ApiTables.v`) |
| C22 | get_booth_index with 32-bit arithmetic | bit-level arithmetic in Z, telescoping sum (`BoothProofs.v`); computed refutation for width 25 |
| C23 | batch addition with affine formulas | invariant: sum of remaining points is preserved; refutation by a concrete exceptional pair |
| C24 | batch inversion with scratch pad | induction, prefix products |
| C25 | lincomb | induction; refutation of the documented None |
| C26 | fft_inplace loops over any module | loop invariant: after s stages blocks of size 2^s hold DFTs of the decimated input |
| C27 | coset variants | C26 and scaling |
| C28 | Domain::new | order of the generator in Fr |
| C29 | swap loops | loop invariant on processed prefix |
| C30 | poly_coeff functions | correspondence with `{poly F}` |
| C31 | lagrange_interpolate loops | invariant of the inner shift loop; uniqueness |
| C32 | ReedSolomon::recover | vanishing polynomial, division on the coset, degree argument |
| C33 | encode, checks | case analysis, FFT theorem |
| C34 | circulant embedding | convolution theorem for modules |
| C35 | recover_evaluations_in_domain_order | index arithmetic of bit reversal |
| C36 | scalar/cell/blob/point codecs | big-endian arithmetic; byte strings of every length in `PropCodec.v` |
| C37 | C entry points over an explicit memory of blocks (`CMem.v`, `CApi.v`), spec in `SpecC.v` | case analysis; frame conditions (`CProofs.v`, `CCallProofs.v`) |
| C38 | C allocation protocol: `good_history` in `SpecC.v` | invariant over histories; exact misuse cases |
| C39 | Java object and live contexts, small steps of any number of threads (`JavaLife.v`), spec in `SpecJava.v` | invariants over schedules (`JavaProofs.v`); refutations by schedules |
| C40 | Java/Node conversions and their calls (`Managed.v`) | case analysis, arithmetic modulo 2^64 (`ManagedProofs.v`); recovery with a wrapped index refutes the Node claim |
| C41 | C# methods over the memory of `CMem.v` (`CsApi.v`), spec in `SpecCs.v` | each method prepares memory and calls the C entry point (`CsProofs.v`, using C37); induction over programs; after Dispose the process aborts |
| C42 | Go methods over the memory of `CMem.v` (`GoApi.v`) | false: a rejected blob gives zero bytes, no error and a leaked message (`PropGo.v`); instance with the library of `Eip7594.v` in `ExGo.v` |
| C43 | trusted setup string parsing (`TrustedSetup.v`), spec in `SpecSetup.v` | induction over strings and lists (`TrustedSetupProofs.v`) |
| C44 | `Naive.v` (kzg_multi_open/src/naive.rs, any points), FK20 reference and FK20 prover (`FK20Prover.v`) | Ruffini division = quotient by the product of linear factors; on a coset that product is X^L - h^L (`NaiveProofs.v`); theorems in `PropNaive.v` and `PropFK20.v`, instances in `ExNaive.v`, `ExFK20.v` |
| C45 | FK20Prover::new with a longer key | computed counterexample over Fr |
| C46 | C# methods with a garbage collector as parameter (`CsApi.v`, `collector` in `SpecCs.v`) | any collector for the blob method; a collector that moves unpinned arrays refutes the rest (`CsMoved.v`) |
| C47 | Go programs with the finalizer at one of three moments (`GoApi.v`) | induction over the blobs; use after free when it runs in the last call |
| C48 | the C entry points (`CApi.v`) over the library of `Eip7594.v` (`eip7594_api`) | C37 for memory, C02-C12 and C21 for values; `PropCReal.v`, instances with and without tables in `ExCReal.v` |
| C49 | constructors of all bindings and of Rust, thread pool as a number (`Ctor.v`) | arithmetic modulo 2^32; C20 and C21 for the equality of results (`PropCtor.v`); rayon and the operating system are parameters (default number of threads, whether threads can be started) |
| C50 | the Nim procedures over the memory model (`NimApi.v`) | C37 for the native calls, layout of arrays in a row (`NimProofs.v`), induction over the calls (`PropNim.v`); `$` on the result structure is a parameter |
| C51 | the reference functions of the consensus specification (`SpecConsensus.v`): FFT by recursion on even and odd positions, schoolbook polynomial arithmetic, interpolation by summands, long division, vanishing polynomial of the missing cells | each reference function computes the operation on `{poly Fr}` (`ConsensusProofs.v`), the constants and bytes of EIP-7594 (`ConsensusApi.v`), then C02-C17 (`PropConsensus.v`); contexts with tables by C21, for compute and recover where no exceptional pair is met (`PropConsensusTables.v`) |
| C52 | the Java native methods over a heap of Java objects with counted local references (`Jni.v`), spec in `SpecJni.v` | each conversion reads or appends objects (`JniProofs.v`), case analysis in code order (`PropJni.v`); C06, C10 and C37 for the relations between calls |
| C53 | `CellsAndProofs.java` (`Jni.v`), int arithmetic modulo 2^32 | contents of references (`CapProofs.v`); computed collisions (`PropJni.v`) |
| C54 | methods of `lib.rs` of the Node binding over buffers and views (`Node.v`), conversions of `Managed.v` | what arrays stand for (`SpecNode.v`, `NodeProofs.v`, `PropNode.v`) |
| C55 | promises and workers as events of two kinds of threads (`Node.v`) | invariant of a promise along every run, for every program that reads only its arrays (`PropNode.v`); two refuted claims with their runs |
| C56 | the verifier of C10–C14 with a setup of the powers of a secret | reductions (`PropSound.v`, algebra in `SoundnessAlg.v`): what the proofs of a wrong cell compute, with all coefficients fixed before the secret; for an algebraic prover the secrets are roots of a nonzero polynomial. That the computed values are hard to find is the assumption of the scheme and not stated in Rocq |
| C57 | reduce_bytes_to_scalar_bias (`Reduce.v`), the two blst functions given by what they compute; the digest as a parameter of the verifier (`with_digest`) | counting of preimages between 0, r, 2r and 2^256 (`PropChallenge.v`), and C13's bound on challenges pulled back along the reduction |
| C58 | the output of derive(Debug) for all error enums (`Debug.v`) behind the C interface of C37 | texts are self-delimiting, hence injective; decimal numbers against `SpecDebug.v` (`DebugProofs.v`); the messages of all refused calls by C05, C07, C08 and C14 through C37 (`PropDebug.v`, `PropDebugMsg.v`) |
| C59 | the constructor of LibEthKZG.java up to the native call, any number of threads: volatile flag, monitor, loading as events (`JavaLoad.v`), spec on event lists in `SpecLoad.v` | invariant along every run (`JavaLoadProofs.v`, `PropLoad.v`) |
| C60 | FixedBaseMSMPrecompBLST over blst's wbits functions with explicit memory faults (`BlstMSM.v`); the enum of C21 | induction over the points; tables of a prefix; two refuted claims (`PropBlstMSM.v`) |
| C61 | the models of the C, C#, Nim, Java and Node bindings side by side (`CApi.v`, `CsApi.v`, `NimApi.v`, `Jni.v`, `Node.v`); what a caller of each can see is in `SpecAgree.v` | each binding shows the library's answer (`AgreeProofs.v`, from C37, C41, C50, C52, C54), hence all the same (`PropAgree.v`); the library's answers with different options by C20 and C21 (`PropAgreeReal.v`). Go is left out: it returns 48 zero bytes for a rejected blob (C42) |
| C62 | the calls of `CApi.v` again, as programs of single reads, writes, frees and returns on the memory of `CMem.v`, and the runs of any number of threads (`CThreads.v`); what a call reads and writes by its documentation, separation, and the answer of a call that is alone in `SpecThreads.v` | the programs do what `CApi.v` does and stay in their memory (`ThreadsCode.v`, `ThreadsCanon.v`); for every such program, a simulation between the call in the run and the call alone (`ThreadsProofs.v`, `ThreadsRun.v`, `PropThreads.v`); two refuted claims with their runs. The computation between the last read and the first write is one step: the library keeps no state but the context, which it only reads; that a verdict appears at once: shape of the program (`VerdictProofs.v`, `PropVerdict.v`) |
| C63 | the layout of structs as in C, and CResult as declared in Rust, C# and Nim (`Abi.v`); the place of the result starts with arbitrary bytes, those between the fields stay | offsets and bytes computed for any size of pointers (`PropAbi.v`); one refuted claim with its machine |
| C64 | the compile scripts, the loaders of Java, C# and Node and the link directives of Go and Nim on strings and lists of files (`Platform.v`); machines, what runs on them and what the tools call them (`SpecPlatform.v`, trusted: naming of rustc, os.name and os.arch of Java, uname, GOOS and so on) | computation on the fixed parts of the names, case distinction on the free parts (`PropPlatform.v`); five refuted claims |
| C65 | threads, the queue and the stacks of the workers of one pool; a call is its code between parallel sections (`Shared.v`), the four calls of the API cut at the sections of batch_toeplitz.rs (`SharedApi.v`); events of a thread and the result of a call alone in `SpecShared.v` | each section seen alone is a run of the pool of C20 (`SharedProofs.v`: projection to one thread, invariant, decreasing measure); theorems in `PropShared.v`, a run with two threads and one worker in `ExShared.v`. One global queue from which any job may be taken stands for the queues of the workers; a worker that split its part does not wait for the other half |
| C66 | C# object and live contexts, small steps of any number of threads; the length checks before the field is read are a parameter (`CsLife.v`), spec in `SpecCsLife.v` | invariants over schedules (`CsLifeProofs.v`); refutations by schedules |
| C67 | the constructors and openings as modelled for C28, C34 and C44, no new definitions | case analysis of the assertions; C67_take_n by the equation of the inverse transform. Only "returns, so the sizes fit" is claimed except for C67_take_n; batch_toeplitz, naive and toeplitz are internal modules. Theorems in `PropSizes.v`, accepted and refused sizes in `ExSizes.v` |

## 4. Trusted base
* Coq 8.16.1's kernel (and coqchk as a second check).
* What `Print Assumptions` lists under each theorem in the `Prop*.v` files. The target is
  "Closed under the global context" for each.
* `SpecConsensus.v` was written down from the published consensus-specs text of EIP-7594, which is not
  in /repo (the version that asks for distinct cell indices, not for ascending ones). Its assertions on
  lengths that always hold are left out, as its header says.
* The reading of the Rust, Java, Go, C# and Nim sources into the model. For Nim: a statement list
  expression opens no scope, a `ref object` is destroyed once, and `$` on an untyped pointer does not
  read what it points to. For Java: the functions of the crate jni are taken from its documentation
  (they refuse null and keep the local references that they return), the heap changes during a native
  call only by that call, and memory suffices. For Node: napi hands Rust the memory of an array itself
  and not a copy, buffers are neither resized nor detached, one read of an array is one step, and the
  text of TryFromSliceError is "could not convert slice to array". For C57: blst_fr_from_scalar reduces
  modulo r. For C58: what derive(Debug) prints for structs, tuples, numbers and Vec<u8> is from the
  documentation of Rust. For C59: accesses to a volatile field and to a monitor are in one order that all
  threads see. For C60: what the wbits functions of blst read, write and compute is from blst's source
  as known, which is not in /repo. For C62: reads and writes of all threads are in one order (without
  races that is what the memory models of C and Rust give), allocation is atomic, and the library keeps
  no changing state of its own; its thread pool is used by one call as by none (C49). For C63: a field is aligned to its size, an enum
  of repr(C) has 4 bytes, a Nim enum with two values has 1 byte, and the result is passed through memory
  (or through registers that are stored like it).
* Modelled: everything listed in section 3. Not modelled: blst's internals (field and curve
  arithmetic, point decompression, subgroup checks), sha256 internals, serde_json, allocation failure,
  stack depth, timing, `tracing` instrumentation, the JVM/V8/CLR/Go runtimes beyond the stated
  conversions, build scripts, benches and tests.

## How to read the mutation log

Each line of `seeded/LOG.jsonl` is one attempt. `failed` names the first statement in each file that no longer builds.
For about seven attempts in ten that is a supporting lemma, not a property theorem or an example. Such a line shows
that the proof does not go through as written. It does not by itself show that a theorem is false for the edited model:
a proof script can break on an edit that changes nothing that is claimed. `property_theorems_no_longer_built` lists
theorems that were not reached, not theorems shown false.

A later review, which is not complete, went through part of the lines that stop at a lemma. Fields it added:

- `confirmed_by_evaluation`: theorem statements that are false on concrete cases of the edited model, by computation.
- `examples_that_fail`: examples that fail on the edited model when the proofs of all lemmas are skipped. An example that
  spells out a run may fail because a state looks different, and one that uses another example fails with it. An empty
  list says that no example noticed the edit, so only lemmas and a reading speak for its detection. Some examples
  could not be run this way and are in no list. An earlier version of the script lost the definitions after a failed
  example and so listed too many; the lists were computed again, and those of b3-34, b3-35, b3-38, b9_17, b12_23 and
  b12_24 became shorter (none became empty).
- `note`: a judgement by reading, an ill-formed attempt, or a harmless edit.

The review found eleven edits that had been taken for detected and were not. Three are b13_03, b13_11 (C66) and b11_43
(C62). The other eight are b1-06, b5-35, b5-37, b5-44, b5-47, b10_16, b10_17 and b10_20: they drop checks of sizes that
no theorem stated, and C67 was added for them. The theorems C66_late_dispose, C66_overlap_refuted and C62_verdict_last
are the result, and C39_close_during_call_refuted had the same gap as C66. It found that b2-29, b2-30, b3-47, b3-48,
b5-30, b6-01, b10_13, b12_04, b12_05, b13_05 and b13_07 are harmless, and that b2-43, b10_42, b11_05 and the first
b13_08 did not compile; these were repeated. Lines with none of these fields whose `failed` names only lemmas have not
been reviewed. They include most edits of the polynomial, FFT, MSM and FK20 files, whose theorems are exact equations.
