# Formal model of ZoKrates in Rocq (Coq 8.16.1)

## Method
* Every prime field is modelled at once: `PrimeField` (PField.v) is a record with a modulus `pp` and a proof that it is prime;
  theorems are quantified over it (plus, where the code needs it, a bound on the bit length, e.g. `3 <= required_bits`; all six supported
  fields meet the bounds, see `C43_field_sizes`, `C47_fields`, `C26_fields_wide`). Field elements are canonical residues with Leibniz equality.
  bn254's order is proved prime in Primality.v by Pocklington certificates, so the examples are about the real default field.
* Models are total, computable Gallina functions, each definition citing the lines of /repo it models. Rust panics and errors are
  explicit (`None` or an error constructor). Loops become structural recursion; there is no fuel.
* A *specification* is separate from each model: `sat`/`satisfies` (IRSpec.v) for constraint systems, `sem*` (Zir.v) for the flat typed
  language, `trun` (Typed.v) for the language with structured values,
  integer readings of bit vectors (`bv`, Bits.v), polynomial readings (Asm.v), byte formats (Bytes.v, Cbor.v, CircomFile.v).
* `Prop*.v` files hold the property theorems, each followed by `Print Assumptions` and by a `..._nonvacuous` example: a concrete case
  meeting all the hypotheses.
* A property that is false of the faithful model is proved false: `..._refuted`, with the concrete program or input. Such a property is
  `partial` in MANIFEST.json when a positive part is proved too.

## Trusted base
1. Coq's kernel, including its virtual machine (`vm_compute` is used in examples, refutations and the primality certificates).
2. `Print Assumptions`: **every** theorem listed in MANIFEST.json is *Closed under the global context* (no axiom at all). vcheck lists seven constants
   `Coq.ssr.ssrunder.Under_rel.*`: they come with the standard library's ssreflect files being loaded; no theorem here depends on them.
3. The faithfulness of the model to the Rust text. The code cannot be run here; each definition is a transcription with its source lines cited.
4. Contracts of external crates that are assumed, i.e. modelled by what they document rather than from their source:
   `num-bigint` (exact integers, to/from bytes), `ark-ff` field arithmetic (exact arithmetic mod p; canonical serialisation = little endian bytes of
   the modulus' byte length, values >= p rejected), `serde_cbor` (Cbor.v: the encoder's shortest-form output and the streaming decoder's behaviour on
   prefixes, including its recursion limit), `serde_json` (values as trees; the text syntax is not modelled), `sha2` (Sha256.v computes SHA-256),
   `std::collections::{BTreeMap,BTreeSet}` (sorted maps, SMap.v), hash maps/sets (any map with the same look-ups), and the hash of the
   duplicate pass (a function parameter, with "no collision inside this program" as a stated hypothesis).
5. Zir solvers in the interpreter: `ext` is a parameter (any function) for the external solvers (Zir/Ref functions); the built-in solvers (Bits, Div, Xor, Or, ShaAndXorAndXorAndXor, ShaCh, EuclideanDiv,
   ConditionEq, SnarkVerify excluded) are modelled by their definitions.

## What is modelled
| File(s) | Source |
|---|---|
| PField, Bits, Fields, Primality | zokrates_field/src/lib.rs, per-field modules (moduli, bit lengths, checked ops, required bits) |
| IR, IRProofs, IRSpec, Wf | zokrates_ast/src/ir/{expression,mod}.rs: LinComb, QuadComb, canonical forms, linearity, statements |
| Interp, InterpProofs | zokrates_interpreter/src/lib.rs: execution, directives, checks, logs |
| Optimizer, OptimizerProofs, OptPipeline, OptExtra, OutOrder | zokrates_core/src/optimizer/*.rs: all passes and their pipeline order |
| Flat, FlatProofs | zokrates_ast/src/flat, ir/from_flat.rs: flat expressions and lowering to rank-1 constraints |
| Zir, Codegen, Cg* | zokrates_ast/src/zir (expressions, statements), zokrates_codegen/src/lib.rs: the flattener, every gadget, statements, parameters, returns, panics (RuntimeError), bit cache, isolation-off mode |
| UintOpt*, UintRaw, UintCheck | zokrates_analysis/src/uint_optimizer.rs |
| Panic, DeadCode, NoFail, Source | panic_extractor.rs, dead_code.rs and their composition with the uint optimiser |
| ZProp, ZPropStmt, ZPropType | zir_propagation.rs: constant propagation over ZIR |
| ArrayCmp | boolean_array_comparator.rs |
| Asm, PropAsm | assembly_transformer.rs (constraint classification, LinQuadComb) |
| Typed, Flatten* , Enforce | the typed language after reduction; flatten_complex_types.rs |
| Backend, Circom, CircomFile | ark/bellman synthesis (zokrates_ark, zokrates_bellman), zokrates_circom r1cs/witness |
| Bytes, WitnessIO, Cbor, Sha256, ProgIO*, ProgFile | witness files, program files: header, sections, CBOR statements, solver indexer, truncation |
| Str, Abi, AbiJson | zokrates_abi: Encode/Decode, JSON values; field parsing and printing |
| PropCheck | ir/check.rs unconstrained variables |
| Generics, PropGenerics | typed/types.rs: inference and instantiation of generic parameters |

## What is not modelled
The parser and the type checker of the surface language (pest grammar, zokrates_semantics), imports and the choice of the function a call refers to (the inference of its generic arguments is modelled, C60; monomorphised copies are calls with their generic arguments in Reduce.v, C50); the
proof systems themselves (pairings, Groth16/GM17/Marlin setup and proofs; only what they are given); Solidity export; the nova backend; the JS bindings; the REPL/CLI argument
handling; memory and time consumption (except the recursion limit of serde_cbor and the arithmetic overflow checks that change results);
source spans; the text of errors and log formats (opaque identifiers).

## Per property
Method notes: *sim* = simulation by induction on the program; *inv* = invariant preserved by each step; *dec* = computation on a concrete case
(only for refutations and non-vacuity).

| Id | Modelled by / proved how | Limits and premises |
|----|---|---|
| C01, C02 | Interp.exec; *inv*: every processed constraint holds of the partial witness and stays so since assigned variables never change | solver behaviour is a parameter for C01/C02 positive theorems; introductions distinct; def-before-use for completeness |
| C03, C04 | canonical forms as sorted maps; uniqueness by evaluating at unit assignments (a finite-field argument needing 2 < p for exactness of linearity) | none |
| C05 | Flat.lower; structural induction, both directions | rank-1 shape (others panic in the code) |
| C06, C07, C09, C10, C11 | each pass as a state machine; *sim* with a substitution invariant; the redefinition pass needs def-before-use; pipeline composed in OptPipeline | hash without collision inside the program; block-free programs |
| C08 | the pass with blocks (`PropBlocks.v`): replacements hold on every satisfying assignment (*inv*, no ordering assumption); backwards by lifting an assignment through the final table of replacements; refuted in general: a replaced variable is left over in an earlier constraint | soundness: `settled`, computed on the output |
| C12–C16, C20 | gadgets: emitted constraints force the integer reading; honest run satisfies them | bit-length bounds as required by the code |
| C17–C19, C23, C24 | mutual induction on expressions, relation between representation and value (`urep`, `vrel`), bit cache invariant | typing with metadata (`wt`), guarded divisions |
| C21, C22 | uint optimiser: metadata bounds; refutations for shifts and the boundary subtraction | `smax_ok_prog` for the maxima; `max_ok_prog`, weaker (shifts that are operands of bitwise operators are exempt: only their bits are used), for the meaning of circuits; both computable |
| C25 | classification by degree; polynomial semantics | degree 3 accepted: refuted |
| C26–C28 | structural induction on types; numerals as strings | arrays of empty elements refuted; `010`, overflow refuted |
| C29–C31, C44, C45 | codecs as byte-list functions; prefix stability; round trips | CBOR per serde_cbor contract |
| C32 | exact characterisation of the reported set | logs count as constraints |
| C33–C35, C43 | synthesis as fold with a wire map; r1cs numbering; file layout | block-free programs |
| C36, C37 | arithmetic on bit vectors | none |
| C38–C40 | ZIR big-step semantics; *sim* | dropped failing definitions refuted |
| C41 | composition: ZIR program -> analyses -> codegen -> lowering -> optimiser, sound for all witnesses and complete for the honest run | cache premises (`cache_safe`, `cache_clean`), computable |
| C42 | refuted: stale cached bits; proved for programs without inexact reuse | `cache_clean`, computable |
| C46 | typed semantics vs flat semantics: *sim* with the encoding relation, selects by one-hot conjunction trees | reduced programs |
| C47 | C46 + C39 + C41 composed; violated assertions tracked through the passes (Enforce.v); scoping of the propagated program is proved (Closed.v) | assertions of the main block; computable side conditions `max_ok_prog` and cache safety (both needed: C21, C22, C42) |
| C48 | assignments to parts: write removal, condition variables and flattening, *sim* with an environment updated component by component; faithful on the class `safe_write`, two refutations outside it | typed programs of C46/C47 have no partial assignments; condition variables are negative identifiers |
| C49 | the typed constant propagator, rule by rule, over a source language with versioned identifiers (`Src.v`, `SrcTy.v`); *sim* between a program and its propagated form with a table of constants laid over the environment; typing preserved | calls and loops (removed by the reducer before), struct generics, location tracking; errors are one `None`; uint widths W8..W64 |
| C50 | the reducer: shallow SSA (frames, versions), inlining with bindings of parameters and generics, unrolling, propagation before and after each step, double renaming of slices (`Reduce.v`); *sim* between the source run (calls executed, `Src.v`) and the reduced run, by induction on the recursion bound, with invariants relating versions, frames and constants (`ReduceBody.v`, `ReduceCall.v`); the bound is immaterial (`ReduceFuel.v`) | inference of generic parameters (their values are part of the call), block expressions, constant definitions, assembly, location tracking; errors and panics are one `None` |
| C51 | C48 + C39 + C41 composed: the flat program of `wcompile` is well typed, in fresh form and scoped (`wcompile_wf`), so constant propagation and the back end apply; the output of propagation is scoped (ClosedW.v) | class `safe_write`; side conditions of C47 |
| C52 | C50 + C49 + lowering to `wprog` (`Lower.v`: constant arguments are literals, identifiers numbered) + C53 + C51 composed; violations tracked statement by statement (`lower_fails`) | classes of C48 and C50; side conditions of C47 |
| C53 | out_of_bounds.rs transcribed (`Bounds.v`); an accepted read outside other reads, or write, is within bounds on every value | reads inside reads are not visited: refuted |
| C54 | smtlib2.rs transcribed as a text printer (`Smt.v`); the text is read back by an independent reader of SMT-LIB (`SmtSpec.v`) and evaluated over the integers; equivalence with `satisfies` | SMT-LIB fragment: declare-const, assert, and, =, +, *, mod; symbol and numeral syntax only as far as used |
| C55 | `NoUint.v`: syntactic check `no_uint` preserved by panic extraction, dead code and integer optimisation; maxima condition trivial; invariant of the code generator: every cached bit decomposition of a non-literal is exact, so no approximate reuse. `PropNoUint.v`: C52 without its side conditions, as an exact correspondence | as C52 |
| C56 | `PropUnpack.v`: the program embed unpack + strict comparison, through the compiler theorem C41; its side conditions are proved for every field. Refutation: a malicious solver run by vm_compute gives a second satisfying assignment | the `unpacks_checked` condition of C40/C41/C47/C51/C52/C55/C57 (every full-width unpack is compared with p - 1, scanned syntactically in `CgProg.v`) is decidable and is exactly the pattern proved here. Rejections of built-in functions are enforced under `checks_kept` (`Enforce.v`: dead-code elimination drops no built-in with a restricted domain), computed on the program |
| C57 | `Std.v`: the .zok files transcribed as functions of the source-language model (`Src.v`), evaluated symbolically for all arguments and generic sizes (`StdRun.v`, `StdSpec.v`, `StdEc.v`); `Edwards.v`: associativity of the twisted Edwards law; `Fermat.v`: non-squares via Euler's criterion; `PropStd.v`: the compiler theorems C52 specialised to calls of these functions | other hashes, signatures: not modelled |
| C58 | `Sha.v`: hashes/sha256/*.zok transcribed as functions of the source-language model; `ShaRun.v`, `ShaRound.v`, `ShaHash.v`, `ShaPad.v`: symbolic evaluation (loops by invariant), for all words, all numbers of blocks; `ShaSpec.v`: words, bytes and bits of FIPS 180-4 padding; `ShaTy.v`: the functions meet the conditions of C52; `PropSha.v`: theorems; `ShaCirc.v`, `PropShaBytes.v`: the whole pipeline computed on sha256Padded<3>, all side conditions discharged | generic sizes whose padded length is a u32 |
| C59 | as C58, on bits | false for L + 65 a multiple of 512: `C59_padded_447_refuted` |

| C60 | `Generics.v`: check_type and specialize as state transformers on the map of generic values; *inv*: the assignments that extend the resulting map are those that extend the initial one and solve the equations of the type; uniqueness by comparing domains | constants in signatures resolved before (constants_reader.rs); declared sizes given by expressions are left out (never built); the search of the declaration by name is not modelled |
## Findings (statements proved false of the model, i.e. suspected defects of the code)
C08 (redefinition inside asm blocks), C10 (repeated logs dropped), C21/C22 (uint maxima after shifts, subtraction at the boundary), C25 (degree-3 constraint becomes
`x === 0`), C26/C46 (arrays of empty elements panic), C27/C28 (decimal strings: `010` is sixteen, values above the modulus wrap), C30 (pallas/vesta name), C35 (witness and r1cs numbering),
C38/C39 (failing unused computations dropped), C42 (stale bit cache: wrong results), C43 (bw6_761 r1cs files), C44 (deep solvers unreadable), C45 (unreadable statements silently
end the program), C48 (aggregate assigned from its own components; right-hand side recomputed after a partial update),
C49 (division by zero folded away; unpack of a constant wider than the field),
C50 (a slice of the assigned variable on the right of its own assignment makes the reduced program refer to itself; calls folded away before inlining lose their assertions),
C53 (constant indices inside other reads are not checked), C56 (unchecked full-width unpack is not unique: nonStrictUnpack256, hence edwardsCompress and proofOfOwnership),
C59 (sha256Padded on 447 bits, or any L with L + 65 a multiple of 512, adds a block too many: `k = 512 - r` with r = 0), C57 (the comment of unpack128.zok promises truncation; the function rejects; an unpack whose result is unused is dropped as dead code together with its range check).

## Testing the theorems
seeded/LOG.jsonl lists the edits made to the model in a scratch copy, the claim each breaks, and the theorems that stopped proving.
