{"id": "C01", "title": "A witness returned by the interpreter satisfies the program", "statement": "If executing a compiled program on a list of inputs succeeds, the returned witness assigns 1 to ~one, assigns each input to its parameter, and satisfies every constraint of the program (left*right = lin over the field), provided no directive writes to a variable that already has a value.", "quantifier": "every prime field, every straight-line IR program whose directives write fresh variables, every input list, every solver behaviour", "why_tests_cant": "unit tests execute a handful of fixed programs; the claim ranges over all programs and inputs and over the order in which assignments are discovered", "anchors": ["zokrates_interpreter/src/lib.rs: Interpreter::execute, execute_with_log_stream, evaluate_lin, evaluate_quad", "zokrates_ast/src/ir/expression.rs: LinComb::is_assignee"]}
{"id": "C02", "title": "Execution fails exactly when a constraint is violated or the input count is wrong", "statement": "Execution reports WrongInputCount iff the number of inputs differs from the number of parameters, reports UnsatisfiedConstraint only if some constraint is false of the values computed so far, and a program for which some assignment extending the inputs agrees with every solver output and satisfies every constraint is executed successfully, to the same values.", "quantifier": "all programs, all inputs, all assignments consistent with the solvers", "why_tests_cant": "needs all assignments consistent with the solvers", "anchors": ["zokrates_interpreter/src/lib.rs: execute_with_log_stream, check_inputs, Error"]}
{"id": "C03", "title": "Canonicalisation of linear combinations preserves meaning and is a normal form", "statement": "Reducing a linear combination yields strictly increasing variables and non-zero coefficients, evaluates to the same field element under every assignment, and two combinations have the same reduced form iff they agree under every assignment.", "quantifier": "all linear combinations (any length, repeated variables, zero coefficients), all assignments", "why_tests_cant": "equality as functions quantifies over all assignments; tests check a few literals", "anchors": ["zokrates_ast/src/ir/expression.rs: LinComb::into_canonical, reduce, CanonicalLinComb"]}
{"id": "C04", "title": "Linearity analysis of quadratic combinations is exact", "statement": "When a product of two linear combinations is recognised as linear/constant, the returned combination has the same value under every assignment with ~one = 1; combinations reported constant evaluate to that constant; the reported single summand k*v has the value of the whole combination.", "quantifier": "all quadratic/linear combinations and assignments", "why_tests_cant": "quantifies over all assignments", "anchors": ["zokrates_ast/src/ir/expression.rs: QuadComb::try_linear, LinComb::try_constant, try_summand"]}
{"id": "C05", "title": "Lowering flat programs to R1CS preserves the satisfying assignments", "statement": "Every flat definition or condition whose shape is accepted is turned into a quadratic constraint satisfied by exactly the same assignments.", "quantifier": "all flat expressions of the accepted shape, all assignments", "why_tests_cant": "all expression trees and assignments", "anchors": ["zokrates_ast/src/ir/from_flat.rs", "zokrates_ast/src/flat/mod.rs: FlatExpression::is_linear"]}
{"id": "C06", "title": "Dropping tautologies and canonicalising never changes the satisfying assignments", "statement": "The tautology and canonicalisation passes leave the set of satisfying assignments of a program unchanged.", "quantifier": "all programs, all assignments", "why_tests_cant": "quantifies over all programs and assignments", "anchors": ["zokrates_core/src/optimizer/tautology.rs", "zokrates_core/src/optimizer/canonicalizer.rs"]}
{"id": "C07", "title": "Redefinition removal preserves the public behaviour of a program", "statement": "For a program without assembly blocks in which each variable is introduced before it is used, the redefinition pass accepts no new (inputs, returns) pair: every satisfying assignment of the output, however produced, can be changed outside the inputs and returns into one of the original; and every satisfying assignment of the original whose directive outputs are the solvers' answers satisfies the output with the same logs.", "quantifier": "all such programs, all assignments", "why_tests_cant": "soundness of a circuit optimisation is a statement about every (also malicious) assignment", "anchors": ["zokrates_core/src/optimizer/redefinition.rs: RedefinitionOptimizer"]}
{"id": "C08", "title": "Redefinition removal inside assembly blocks preserves the public behaviour", "statement": "For programs with assembly blocks, removing redefinitions and their directives does not allow new (input, return) pairs and keeps the program executable.", "quantifier": "all programs with assembly blocks", "why_tests_cant": "needs adversarial assignments and specific statement orders", "anchors": ["zokrates_core/src/optimizer/redefinition.rs: fold_assembly/Block handling, aggressive mode"]}
{"id": "C09", "title": "Merging equal directives preserves soundness and execution", "statement": "Replacing the outputs of a directive by those of an earlier directive with the same solver and inputs keeps the accepted (input, return) pairs of honest executions and never accepts a pair the original rejects.", "quantifier": "all programs, all assignments", "why_tests_cant": "quantifies over programs and assignments", "anchors": ["zokrates_core/src/optimizer/directive.rs: DirectiveOptimizer"]}
{"id": "C10", "title": "Removing duplicate statements preserves constraints and logs", "statement": "Removing repeated constraints and directives leaves the satisfying assignments unchanged, and every log statement that would have been printed is still printed.", "quantifier": "all programs, all assignments", "why_tests_cant": "quantifies over programs and assignments; relies on hashes being injective on the program", "anchors": ["zokrates_core/src/optimizer/duplicate.rs: DuplicateOptimizer"]}
{"id": "C11", "title": "The whole optimiser preserves the accepted (input, return) pairs", "statement": "For a program without assembly blocks introducing variables before use, every assignment of inputs and returns accepted by the optimised program (by any, also malicious, witness) is accepted by the unoptimised one, and whenever the unoptimised program executes successfully so does the optimised one, with the same returns and the same set of log lines.", "quantifier": "all such programs, all inputs and returns", "why_tests_cant": "composition of passes on arbitrary programs", "anchors": ["zokrates_core/src/optimizer/mod.rs: optimize"]}
{"id": "C12", "title": "Bit decompositions are forced by the constraints", "statement": "Any assignment satisfying the constraints emitted for a w-bit decomposition gives boolean outputs whose weighted sum is the decomposed value; when w is below the field bit length they are the binary digits of its canonical value, most significant first; a honest execution always succeeds on values below 2^w.", "quantifier": "all fields, all widths, all values, all (malicious) assignments", "why_tests_cant": "quantifies over adversarial assignments in a 2^254-element field", "anchors": ["zokrates_codegen/src/lib.rs: get_bits_unchecked", "zokrates_ast/src/common/embed.rs: unpack_to_bitwidth", "zokrates_ast/src/common/flat utils: flat_expression_from_bits"]}
{"id": "C13", "title": "Equality tests return 1 exactly on equal operands", "statement": "For any assignment satisfying the constraints emitted for an equality test, the result is 1 if the operands are equal and 0 otherwise, and a satisfying assignment always exists.", "quantifier": "all fields, operands and assignments", "why_tests_cant": "needs malicious choice of the prover-supplied inverse and flag", "anchors": ["zokrates_codegen/src/lib.rs: eq_check", "zokrates_interpreter/src/lib.rs: Solver::ConditionEq"]}
{"id": "C14", "title": "Comparison with a constant is sound for bit decompositions", "statement": "The gadget comparing a big-endian boolean vector with constant bits yields conditions that are all satisfied / whose sum equals their count exactly when the integer value of the vector is <= the constant.", "quantifier": "all bit widths, all constants, all boolean vectors and assignments", "why_tests_cant": "exponentially many vectors", "anchors": ["zokrates_codegen/src/lib.rs: constant_le_check, enforce_constant_le_check_bits, enforce_constant_le_check, enforce_constant_lt_check"]}
{"id": "C15", "title": "Field comparison against a constant compares canonical representatives", "statement": "x < c and x <= c for a constant c evaluate to 1 iff the canonical integer representatives compare so, for every x, including those whose full-width decomposition is not unique over the integers.", "quantifier": "all fields, all constants, all x, all assignments", "why_tests_cant": "the non-canonical decompositions are only reachable by a malicious prover", "anchors": ["zokrates_codegen/src/lib.rs: constant_field_le_check, constant_lt_check, flatten_boolean_expression (FieldLt)"]}
{"id": "C16", "title": "Dynamic comparisons compare canonical representatives", "statement": "For operands in range, the gadget for a < b on w safe bits returns 1 iff a < b as integers, for every satisfying assignment; out-of-range operands of a dynamic field comparison have no satisfying assignment.", "quantifier": "all fields, operands and assignments", "why_tests_cant": "needs all pairs of field elements and adversarial assignments", "anchors": ["zokrates_codegen/src/lib.rs: lt_check, le_check, flatten_boolean_expression (FieldLt, FieldLe, UintLt, UintLe)"]}
{"id": "C17", "title": "Flattened boolean expressions compute their source meaning", "statement": "The flattened form of every boolean expression evaluates to 0 or 1 and equals the source value for all satisfying assignments, and honest execution succeeds whenever the source evaluation does.", "quantifier": "all boolean expressions, environments, assignments", "why_tests_cant": "structural induction over expressions; all assignments", "anchors": ["zokrates_codegen/src/lib.rs: flatten_boolean_expression"]}
{"id": "C18", "title": "Flattened field expressions compute their source meaning", "statement": "The flattened form of every field expression (add, sub, mul, div, pow, neg, conditional, select) equals the source value for every satisfying assignment; division by zero and out-of-bounds selects are unsatisfiable; honest execution succeeds otherwise.", "quantifier": "all field expressions, environments, assignments", "why_tests_cant": "structural induction over expressions; all assignments", "anchors": ["zokrates_codegen/src/lib.rs: flatten_field_expression, flatten_select_expression, flatten_conditional_expression"]}
{"id": "C19", "title": "Flattened unsigned integer expressions compute machine arithmetic", "statement": "The flattened form of every u8/u16/u32/u64 expression, with the metadata computed by the uint optimiser, is congruent modulo 2^w to wrap-around machine arithmetic and never wraps around the field modulus, for every satisfying assignment.", "quantifier": "all uint expressions, environments, assignments, all bit widths", "why_tests_cant": "needs all values of 64-bit operands and adversarial bits", "anchors": ["zokrates_codegen/src/lib.rs: flatten_uint_expression", "zokrates_analysis/src/uint_optimizer.rs"]}
{"id": "C20", "title": "Unsigned division and remainder are the Euclidean ones", "statement": "The quotient and remainder gadget admits only q = n / d and r = n mod d for d != 0 and is unsatisfiable for d = 0.", "quantifier": "all fields wide enough, all widths, operands, assignments", "why_tests_cant": "quotient and remainder are supplied by an untrusted prover", "anchors": ["zokrates_codegen/src/lib.rs: euclidean_division", "zokrates_interpreter/src/lib.rs: Solver::EuclideanDiv"]}
{"id": "C21", "title": "The uint optimiser's maxima are upper bounds and stay below the modulus", "statement": "After annotation, the un-reduced integer value of every uint sub-expression is at most its recorded maximum, which is below the largest uniquely representable integer.", "quantifier": "all expressions and environments", "why_tests_cant": "all operand values and arbitrarily nested expressions", "anchors": ["zokrates_analysis/src/uint_optimizer.rs: fold_uint_expression, force_reduce, force_no_reduce"]}
{"id": "C22", "title": "Unsigned subtraction never fails for valid operands", "statement": "For every pair of operands accepted by the type system, the constraints emitted for a - b have a satisfying assignment giving (a - b) mod 2^w.", "quantifier": "all uint expressions for operands", "why_tests_cant": "needs operands whose tracked maximum lies just below the field's capacity", "anchors": ["zokrates_analysis/src/uint_optimizer.rs: Sub", "zokrates_codegen/src/lib.rs: flatten_uint_expression Sub"]}
{"id": "C23", "title": "Assertions are enforced", "statement": "The constraints emitted for assert(e) are satisfied by an assignment only if e evaluates to true, and honest execution succeeds if it does.", "quantifier": "all assertion shapes, environments, assignments", "why_tests_cant": "all assignments", "anchors": ["zokrates_codegen/src/lib.rs: flatten_statement (Assertion), enforce_naive_assertion, enforce_not_zero_assertion, flatten_equality_assertion"]}
{"id": "C24", "title": "Arguments are range checked", "statement": "For every program argument of type bool or uN, any satisfying assignment gives it a value in {0,1} or [0,2^N).", "quantifier": "all argument lists and assignments", "why_tests_cant": "adversarial inputs", "anchors": ["zokrates_codegen/src/lib.rs: use_parameter"]}
{"id": "C25", "title": "Assembly constraints keep their meaning", "statement": "A constraint in an assembly block is turned into a rank-1 constraint satisfied by exactly the same values, or rejected if its degree exceeds two.", "quantifier": "all assembly expressions, all values", "why_tests_cant": "all polynomial expressions", "anchors": ["zokrates_analysis/src/assembly_transformer.rs", "zokrates_ast/src/zir/lqc.rs: LinQuadComb::try_mul, try_from"]}
{"id": "C26", "title": "ABI encoding and decoding are inverse", "statement": "Decoding the field elements produced by encoding a well-typed value gives back the value, and the number of field elements is the size computed from the type.", "quantifier": "all types (nested arrays, structs, tuples) and values", "why_tests_cant": "recursive types", "anchors": ["zokrates_abi/src/lib.rs: Encode, Decode, Value", "zokrates_ast/src/typed/types.rs: get_primitive_count"]}
{"id": "C27", "title": "ABI JSON values are parsed to the value they print, and out-of-range integers are rejected", "statement": "Printing a value as JSON and parsing it back with its type is the identity; uN strings that denote an integer outside [0,2^N) are rejected, never truncated.", "quantifier": "all types and values, all numeric strings", "why_tests_cant": "unbounded strings", "anchors": ["zokrates_abi/src/lib.rs: parse_value, into_serde_json"]}
{"id": "C28", "title": "Field decimal parsing never changes the number", "statement": "Parsing a decimal numeral as a field element gives that integer if it is below the modulus and is rejected otherwise; printing then parsing is the identity.", "quantifier": "all numerals, all fields", "why_tests_cant": "unbounded strings", "anchors": ["zokrates_field/src/lib.rs: try_from_dec_str, try_from_str, to_dec_string, to_compact_dec_string"]}
{"id": "C29", "title": "Witness files round-trip", "statement": "Reading back the bytes written for a witness gives the same witness; truncated files are rejected.", "quantifier": "all witnesses, all fields, all truncation points", "why_tests_cant": "all sizes and crash points", "anchors": ["zokrates_ast/src/ir/witness.rs: Witness::write, Witness::read", "zokrates_ast/src/common/flat/variable.rs: Variable::write, read"]}
{"id": "C30", "title": "Program headers identify the field the program was compiled for", "statement": "Writing then reading the header gives the same header, and the curve reported for a deserialised program is the curve it was compiled for; files with a foreign magic, version or curve are rejected.", "quantifier": "all curves, all header contents", "why_tests_cant": "all byte strings", "anchors": ["zokrates_ast/src/ir/serialize.rs: ProgHeader, ProgEnum::deserialize, ProgEnum::curve"]}
{"id": "C31", "title": "A truncated program file is never silently accepted", "statement": "Deserialising a program file that was cut short, at any point, fails: the header is rejected or reading the program panics; it never yields a program.", "quantifier": "all programs and truncation points", "why_tests_cant": "all crash points", "anchors": ["zokrates_ast/src/ir/serialize.rs: UnwrappedStreamDeserializer"]}
{"id": "C32", "title": "Unconstrained variables are detected", "statement": "The check accepts a program iff every private input and every variable written by a directive occurs in some constraint (or log).", "quantifier": "all programs", "why_tests_cant": "all programs", "anchors": ["zokrates_ast/src/ir/check.rs: UnconstrainedVariableDetector"]}
{"id": "C33", "title": "Proof-system backends receive the same constraint system", "statement": "The constraint system synthesised for ark/bellman/bellperson is satisfied by a witness iff the program's constraints are, and allocates exactly one wire per variable.", "quantifier": "all programs and assignments", "why_tests_cant": "all programs", "anchors": ["zokrates_ark/src/lib.rs: generate_constraints, ark_combination", "zokrates_bellman/src/lib.rs: synthesize, bellman_combination"]}
{"id": "C34", "title": "Public inputs are given to the verifier in the order the circuit allocates them", "statement": "For a compiled program, the values of the public wires in allocation order are the public arguments in declaration order followed by the return values in index order, i.e. the list passed to the verifier.", "quantifier": "all programs and witnesses", "why_tests_cant": "ordering over all programs", "anchors": ["zokrates_ast/src/ir/mod.rs: public_inputs_values", "zokrates_ark/src/lib.rs: generate_constraints"]}
{"id": "C35", "title": "Exported circom witness and r1cs agree on wire numbering", "statement": "Wire i of the exported r1cs and entry i of the exported witness file refer to the same program variable.", "quantifier": "all programs and witnesses", "why_tests_cant": "ordering over all programs", "anchors": ["zokrates_circom/src/r1cs.rs: r1cs_program", "zokrates_circom/src/witness.rs: write_witness_values"]}
{"id": "C36", "title": "Comparing boolean arrays by packing is exact", "statement": "Two boolean arrays of equal length are equal iff their packed chunks are equal field elements.", "quantifier": "all lengths, contents, fields", "why_tests_cant": "exponentially many arrays", "anchors": ["zokrates_analysis/src/boolean_array_comparator.rs"]}
{"id": "C37", "title": "Integer bound tracking in the field is exact", "statement": "checked_add/checked_mul return the field sum/product iff the integer sum/product is uniquely representable, and None otherwise.", "quantifier": "all field elements in range", "why_tests_cant": "2^254 values", "anchors": ["zokrates_field/src/lib.rs: checked_add, checked_mul, max_unique_value"]}
{"id": "C38", "title": "Dead code elimination preserves the program's results", "statement": "Removing definitions whose variables are never used later leaves returned values, assertions and failures unchanged.", "quantifier": "all programs in which a variable is given a value again only in the way the earlier passes do it (fresh form), and all environments", "why_tests_cant": "all programs", "anchors": ["zokrates_analysis/src/dead_code.rs: DeadCodeEliminator"]}
{"id": "C39", "title": "Constant propagation preserves meaning", "statement": "The simplification of expressions by constant folding and algebraic identities preserves their value in every environment, and never turns a failing computation into a successful one with different constraints.", "quantifier": "all expressions and environments", "why_tests_cant": "all expressions", "anchors": ["zokrates_analysis/src/zir_propagation.rs: ZirPropagator", "zokrates_analysis/src/flat_propagation.rs"]}
{"id": "C40", "title": "Every accepted division is guarded by an assertion", "statement": "After panic extraction no executed statement divides by zero, the guarding assertions survive dead code elimination, and the meaning of the program (success, results, failure) is unchanged by the extraction. The guards of both branches of a conditional are enforced, as documented in control_flow.md.", "quantifier": "all typed programs and all inputs", "why_tests_cant": "all programs and inputs", "anchors": ["zokrates_analysis/src/panic_extractor.rs: PanicExtractor", "zokrates_analysis/src/dead_code.rs: DeadCodeEliminator", "zokrates_book/src/language/control_flow.md"]}
{"id": "C41", "title": "Compilation preserves the meaning of a program", "statement": "For every program in the compiler's typed intermediate language: any witness (also a malicious one) satisfying the compiled constraint system has public outputs equal to the source program's results on the inputs in the witness, the source run does not fail, and whenever the source program succeeds on some inputs the compiled program executes successfully with the same returned values and logs; the same holds after the optimiser.", "quantifier": "all programs, inputs and satisfying witnesses", "why_tests_cant": "the set of programs and the set of (malicious) witnesses are both infinite", "anchors": ["zokrates_codegen/src/lib.rs: from_program_and_config", "zokrates_codegen/src/optimizer", "zokrates_ast/src/ir/from_flat.rs"]}
{"id": "C42", "title": "Reusing a cached bit decomposition never changes the meaning of an expression", "statement": "When the compiler reuses the bits computed earlier for the same sub-expression, the reused bits denote the value requested, whatever order and widths they were requested in.", "quantifier": "all sequences of bit decomposition requests in a program", "why_tests_cant": "depends on the history of earlier expressions in the same program", "anchors": ["zokrates_codegen/src/lib.rs: get_bits, get_bits_unchecked, bits_cache"]}
{"id": "C43", "title": "Circom files are laid out as their readers expect", "statement": "An exported r1cs or wtns file parses with the circom/snarkjs formats: every section has the length it declares, the header states the prime and the numbers of wires, outputs and inputs, and the constraints and values read back are those of the program and of the witness.", "quantifier": "all programs, witnesses and fields", "why_tests_cant": "all programs, fields and sizes; a wrong length only shows for fields of another width", "anchors": ["zokrates_circom/src/r1cs.rs: write_r1cs, write_header, write_constraints, write_lincomb, write_table", "zokrates_circom/src/witness.rs: write_witness, write_witness_values, write_val"]}
{"id": "C44", "title": "Program files round-trip", "statement": "Reading back a serialised program gives the same parameters, return count, module map and statements (solver references resolved through the solver table), so it computes the same witness.", "quantifier": "all programs, module maps, fields and sizes", "why_tests_cant": "all programs", "anchors": ["zokrates_ast/src/ir/serialize.rs: ProgIterator::serialize, ProgEnum::deserialize, read", "zokrates_ast/src/ir/solver_indexer.rs: SolverIndexer", "zokrates_interpreter/src/lib.rs: execute_solver"]}
{"id": "C45", "title": "Statements that cannot be read are reported", "statement": "If a statement of a program file cannot be decoded, reading the file reports an error: no statement is silently dropped.", "quantifier": "all byte strings in the constraint section", "why_tests_cant": "all corruptions", "anchors": ["zokrates_ast/src/ir/serialize.rs: UnwrappedStreamDeserializer::next"]}
{"id": "C46", "title": "Structured values are flattened faithfully", "statement": "Compiling a typed program over structs, tuples and arrays to one over scalars keeps its meaning: on the encoding of well-typed arguments the flat program returns the encoding of the result, writes the same logs and fails an assertion exactly when the typed program does; the flat inputs that are accepted are exactly encodings of typed values; selecting with a dynamic index reads that element or fails when out of bounds.", "quantifier": "all typed programs (nested structs, tuples, arrays, dynamic selects, conditionals, built-in calls) and all arguments", "why_tests_cant": "all programs, all nestings of types, all index values", "anchors": ["zokrates_analysis/src/flatten_complex_types.rs: Flattener, fold_select_expression, conjunction_tree, fold_statement", "zokrates_abi/src/lib.rs: Encode"]}
{"id": "C47", "title": "A typed program compiles to a circuit for its own meaning on structured values", "statement": "End to end from the typed program after reduction: any witness satisfying the compiled (and optimised) program comes from well-typed arguments on which no top-level assertion is false and whose result, encoded, is the outputs; conversely on arguments for which the program has a result, computing the witness succeeds, satisfies all constraints, and decoding the outputs gives that result.", "quantifier": "all typed programs, all arguments, all witnesses", "why_tests_cant": "all witnesses, including those no honest prover would make", "anchors": ["zokrates_analysis/src/lib.rs: analyse", "zokrates_codegen/src/lib.rs: from_program", "zokrates_core/src/compile.rs: compile", "zokrates_cli/src/ops/compute_witness.rs: cli_compute"]}
{"id": "C48", "title": "Assigning to part of a variable changes that part only", "statement": "After an assignment a[i] = e, s.m = e, t.0 = e (nested in any way, with constant or computed indices) the compiled program behaves as if the named part had been replaced by the value e had before the assignment, every other part and variable being unchanged; a computed index out of bounds leaves no witness.", "quantifier": "all programs with assignments to parts of variables, all arguments, all index values", "why_tests_cant": "every nesting of arrays, structures and tuples, every index and every right-hand side, including those that read the variable assigned", "anchors": ["zokrates_analysis/src/variable_write_remover.rs: VariableWriteRemover", "zokrates_analysis/src/condition_redefiner.rs: ConditionRedefiner", "zokrates_analysis/src/flatten_complex_types.rs: fold_assignee, fold_statement", "zokrates_analysis/src/reducer/shallow_ssa.rs: fold_assignee"]}
{"id": "C49", "title": "Constant propagation on typed programs keeps their meaning", "statement": "The optimised program obtained by propagating constants through typed expressions (fields, booleans, integers, arrays, structures, tuples, slices, spreads, built-in calls with constant arguments, assignments to parts) returns the same value and writes the same logs on every input the original has a result for, violates an assertion whenever the original does, stays well typed, and anything the compiler rejects because of it (a false assertion, a built-in applied to a bad constant) is rejected in every run.", "quantifier": "all typed programs without calls or loops, all arguments", "why_tests_cant": "every nesting of expressions, every constant, every input", "anchors": ["zokrates_analysis/src/propagation.rs: Propagator", "zokrates_analysis/src/propagation.rs: fold_definition_statement, fold_assertion_statement, fold_uint_expression_inner, fold_select_expression"]}
{"id": "C50", "title": "Inlining functions, unrolling loops and renaming variables keep the meaning of a program", "statement": "A program with several functions (calls anywhere in expressions, generic parameters with given values, built-in functions), loops with compile-time bounds and reassigned variables compiles to a program without calls and loops which, on every input, returns the same value, writes the same logs and violates an assertion in the same runs; the result is well typed, has the same arguments and the same type of result.", "quantifier": "all programs, all tables of functions, all nestings of calls and loops, all arguments", "why_tests_cant": "every nesting of calls, loops and reassignments, every input", "anchors": ["zokrates_analysis/src/reducer/mod.rs: Reducer, reduce_program", "zokrates_analysis/src/reducer/shallow_ssa.rs: ShallowTransformer", "zokrates_analysis/src/reducer/inline.rs: inline_call"]}
{"id": "C51", "title": "A program with assignments to parts of variables compiles to a circuit for its own meaning", "statement": "End to end from the typed program with assignments a[i] = e, s.m = e, t.0 = e: any witness satisfying the compiled (and optimised) program carries well-typed arguments on which no top-level assertion is false and no computed index of an assignment is out of bounds, and its outputs are the encoded result; conversely on arguments for which the program has a result, computing the witness succeeds and the decoded outputs are that result.", "quantifier": "all typed programs with such assignments (in the class where the assignment itself is faithful, C48), all arguments, all witnesses", "why_tests_cant": "all witnesses, including those no honest prover would make", "anchors": ["zokrates_analysis/src/lib.rs: analyse", "zokrates_analysis/src/variable_write_remover.rs: VariableWriteRemover", "zokrates_codegen/src/lib.rs: from_program", "zokrates_core/src/compile.rs: compile", "zokrates_cli/src/ops/compute_witness.rs: cli_compute"]}
{"id": "C52", "title": "A source program with functions, loops and reassigned variables compiles to a circuit for its own meaning", "statement": "End to end from the program with function calls, generic parameters, loops, mutable variables and assignments to parts: any witness satisfying the compiled (and optimised) program carries well-typed arguments on which no assertion in any function reached by the program is violated and no assignment is out of bounds, and if the program has a result on them the outputs are that result; conversely, on arguments for which the program has a result, computing the witness succeeds, the logs are those of the program, and decoding the outputs gives that result.", "quantifier": "all programs and tables of functions (in the class where inlining and assignments are faithful, C48 and C50), all arguments, all witnesses", "why_tests_cant": "all witnesses, including those no honest prover would make; all programs", "anchors": ["zokrates_analysis/src/lib.rs: analyse", "zokrates_analysis/src/reducer/mod.rs: reduce_program", "zokrates_analysis/src/propagation.rs: Propagator", "zokrates_analysis/src/constant_argument_checker.rs: ConstantArgumentChecker", "zokrates_analysis/src/out_of_bounds.rs: OutOfBoundsChecker", "zokrates_codegen/src/lib.rs: from_program", "zokrates_core/src/compile.rs: compile", "zokrates_cli/src/ops/compute_witness.rs: cli_compute"]}
{"id": "C53", "title": "Constant indices out of bounds are reported at compile time", "statement": "A program in which an array is read or written at a literal index that is not below its size is rejected with an error; in an accepted program every such read and write succeeds.", "quantifier": "all programs, all nestings of reads and writes, all values of the variables", "why_tests_cant": "all programs and all nestings of reads", "anchors": ["zokrates_analysis/src/out_of_bounds.rs: OutOfBoundsChecker", "zokrates_analysis/src/flatten_complex_types.rs: fold_select_expression"]}
{"id": "C54", "title": "SMT-LIB export is equivalent to the constraints", "statement": "For every compiled program, generate-smtlib2 produces a text which an SMT solver reads as a well-formed script (every symbol declared once, before use) and whose models over the integers are exactly the assignments with |~prime| = p and |~one| = 1 whose residues modulo p satisfy the constraints of the program; in particular the script is satisfiable if and only if the constraint system is.", "quantifier": "all constraint systems without blocks (all compiled programs), all integer interpretations of the symbols, all interpretations of the remainder by zero", "why_tests_cant": "A test can compare the text of one program; equivalence with the constraints ranges over all programs and all integer assignments.", "anchors": ["zokrates_ast/src/ir/smtlib2.rs: to_smtlib2, VariableCollector", "zokrates_ast/src/ir/visitor.rs", "zokrates_ast/src/common/flat/variable.rs: Display", "zokrates_cli/src/ops/generate_smtlib2.rs"]}
{"id": "C55", "title": "Constraints of programs over fields and booleans say exactly what the program says", "statement": "For every program (with functions, generics, loops, arrays, structs, conditionals, partial assignments) in which no unsigned integer survives constant propagation, and for every list of arguments of the declared types: if the program has a result, witness computation succeeds with that result and every assignment satisfying the constraints with these arguments has these outputs; if the program fails (false assertion, write out of bounds) no assignment satisfies the constraints. The same holds of the optimised constraints. No further condition on the compiler's intermediate programs is needed.", "quantifier": "all programs of the source fragment without surviving unsigned integers, all arguments, all assignments of the variables, all large enough prime fields", "why_tests_cant": "quantifies over programs, inputs and all (also dishonest) assignments", "anchors": ["zokrates_analysis/src/lib.rs: analyse", "zokrates_codegen/src/lib.rs: flatten_statement, get_bits_unchecked, enforce_constant_le_check", "zokrates_core/src/compile.rs: compile"]}
{"id": "C56", "title": "The strict bit decomposition is unique", "statement": "In the circuit compiled from a program that unpacks a field element to its full width and asserts that the bits are at most those of p - 1 (what the standard library's unpack does), every satisfying assignment outputs exactly the binary representation of its input, and witness computation succeeds on every field element. Without the comparison (unpack_unchecked, nonStrictUnpack256, and what is built on them: edwardsCompress, proofOfOwnership) two decompositions satisfy the constraints.", "quantifier": "all prime fields with at least three bits, all field elements, all satisfying assignments", "why_tests_cant": "all assignments to hundreds of bits, in particular those no honest prover makes", "anchors": ["zokrates_ast/src/common/embed.rs: unpack_to_bitwidth", "zokrates_codegen/src/lib.rs: enforce_constant_le_check_bits, flatten_statement", "zokrates_stdlib/stdlib/utils/pack/bool/unpack.zok", "zokrates_stdlib/stdlib/utils/pack/bool/nonStrictUnpack256.zok"]}
{"id": "C57", "title": "Functions of the standard library compute what their documentation says, and so do circuits calling them", "statement": "pack and unpack of bits, casts between fields and unsigned integers, u32 arrays to bits and back, the multiplexers lookup1bit/lookup2bit/lookup3bitSigned, the Merkle selector, addition, negation, membership, scalar multiplication and order check on a twisted Edwards curve: each returns the mathematical value on all arguments of its domain and rejects all others; the curve points form a group under the addition; a circuit compiled from a call accepts only the returned value and witness computation finds it.", "quantifier": "all arguments, all sizes (generic parameters), all curves with the completeness condition, all prime fields, all satisfying assignments", "why_tests_cant": "every size, every field element, every point of the curve, every satisfying assignment", "anchors": ["zokrates_stdlib/stdlib/utils/pack/bool/pack.zok", "zokrates_stdlib/stdlib/utils/pack/bool/unpack.zok", "zokrates_stdlib/stdlib/utils/casts", "zokrates_stdlib/stdlib/utils/multiplexer", "zokrates_stdlib/stdlib/ecc/edwardsAdd.zok", "zokrates_stdlib/stdlib/ecc/edwardsScalarMult.zok", "zokrates_stdlib/stdlib/ecc/edwardsOrderCheck.zok", "zokrates_stdlib/stdlib/ecc/edwardsOnCurve.zok", "zokrates_stdlib/stdlib/ecc/edwardsNegate.zok", "zokrates_stdlib/stdlib/hashes/utils/256bitsDirectionHelper.zok"]}
{"id": "C58", "title": "The SHA-256 functions of the standard library compute SHA-256, and so do circuits calling them", "statement": "hashes/sha256: shaRound is the compression function of FIPS 180-4, sha256<N> its iteration over N blocks, 512bit/1024bit/1536bit the same over the blocks made of the arguments, 256bitPadded/512bitPadded/1024bitPadded and sha256Padded<N> return SHA-256 of their 32, 64, 128 and N bytes; whatever satisfies the constraints compiled from sha256Padded<N> has N bytes as arguments and the words of their SHA-256 as outputs, and witness computation finds them.", "quantifier": "all words and bytes, all numbers of blocks and bytes for which the length in bits is a u32, all prime fields, all satisfying assignments", "why_tests_cant": "every message of every length, every satisfying assignment: tests compare a few digests", "anchors": ["zokrates_stdlib/stdlib/hashes/sha256/shaRound.zok", "zokrates_stdlib/stdlib/hashes/sha256/sha256.zok", "zokrates_stdlib/stdlib/hashes/sha256/sha256Padded.zok", "zokrates_stdlib/stdlib/hashes/sha256/512bit.zok", "zokrates_stdlib/stdlib/hashes/sha256/1024bit.zok", "zokrates_stdlib/stdlib/hashes/sha256/1536bit.zok", "zokrates_stdlib/stdlib/hashes/sha256/256bitPadded.zok", "zokrates_stdlib/stdlib/hashes/sha256/512bitPadded.zok", "zokrates_stdlib/stdlib/hashes/sha256/1024bitPadded.zok"]}
{"id": "C59", "title": "sha256Padded on bits returns SHA-256 of every message of bits", "statement": "For every number of bits L and every message of L bits, the function sha256Padded<L>(bool[L]) of hashes/sha256/sha256Padded returns the SHA-256 of the message as FIPS 180-4 defines it for messages of bits.", "quantifier": "all L and all messages of L bits", "why_tests_cant": "every length and every message: the padding depends on L mod 512", "anchors": ["zokrates_stdlib/stdlib/hashes/sha256/sha256Padded.zok"]}
{"id": "C60", "title": "Generic arguments of a call are inferred exactly", "statement": "A call to a generic function is accepted exactly when one and only one choice of values for the generic parameters agrees with the explicitly given ones and makes the declared parameter and result types those of the call; the body is then compiled with that choice, and the types it works on are the declared ones for it, members of generic structs included.", "quantifier": "all function signatures, all explicit generic arguments, all argument and result types", "why_tests_cant": "ranges over all types, nested arrays, tuples and generic structs, and over all partially given generic arguments", "anchors": ["zokrates_ast/src/typed/types.rs: check_generic, check_type, specialize_declaration_type, DeclarationSignature::specialize, DeclarationSignature::get_output_type", "zokrates_analysis/src/reducer/inline.rs: inline_call"]}
