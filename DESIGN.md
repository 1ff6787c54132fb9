# Formal model of auto_enums

Files: `properties.jsonl` (what is claimed), `MANIFEST.json` (which theorems state it, and how much is proved),
`seeded/LOG.jsonl` (wrong programs against which the theorems were tested), `rocq/theories` (model, specifications, proofs).

## What is modelled

Two procedural macros of /repo, read as text.

**`#[auto_enum]`**

| Rust | model |
|----|----|
| syn syntax trees, attributes, paths, types; src/utils.rs | Syntax.v |
| src/auto_enum/context.rs: `Context`, `Diagnostic`, `Args`, `Builder` | Context.v |
| src/auto_enum/expr.rs; the read-only visitors `FindNested`, `FnVisitor` and `LoopVisitor`, `child_expr` | ExprModel.v |
| src/auto_enum/type_analysis.rs | TypeAnalysis.v |
| src/auto_enum/visitor.rs: `Visitor`, `Dummy`; src/auto_enum/mod.rs | AutoEnum.v |

Each Rust function is one total Gallina function; the comment above it cites file and lines. `Context` is the state of a
small state and error monad. The functions are mutually recursive through the syntax tree, because expanding a nested attribute
starts a new visitor on the rewritten code; `engine n` is this family with `n` levels of recursion left. Reaching level
zero is an explicit result (`RFuel`), as is a panic (`RPanic`). C14 shows that for every input neither happens once `n`
is large enough and that the result does not depend on `n`; so the theorems of the form "for every `n`, if `attribute n ..` returns code" are
theorems about the only result there is.

**`#[enum_derive]`**

| Rust | model |
|----|----|
| `derive_utils::EnumData`, `EnumImpl`, `derive_trait`; transposition | Derive.v |
| src/derive/**: one definition per module, for its `NAME` and its `derive`; `get_derive` | DeriveTable.v |
| src/enum_derive.rs: arguments, dependencies, aliases, expansion | EnumDerive.v |

**Meaning of programs** (needed for C02, C03, C07, C17, C28, C29, C34-C36, C46, C48-C50; nothing of it is in /repo)

- Eval.v: an evaluator for the syntax: blocks, branches, loops, labelled `break`/`continue`, `return`, `?`, patterns of `Ok`/`Err`/`Some`,
  closures and calls are computed; all other operations of user code are an arbitrary record of functions on an arbitrary
  state, about which theorems assume only that they do not look at the wrapper of a generated enum
  (that is what deriving the traits is for: C28).
- DeriveEval.v: calls of generated methods. The values held by the enum, their implementations, arguments and results are
  arbitrary. Enums live at addresses, so that pinning can be stated.

**Specifications** are separate from the model: Edits.v, Erase.v, Scope.v, ArgsSpec.v, Grammar.v, Outside.v, NoValueSpec.v, Tails.v,
Changes.v, Exits.v, Closures.v, Same.v, Trace.v, Excused.v, Values.v, Annotated.v, Inner.v, Alone.v, Spare.v, Swap.v, Rename.v, Branches.v, Loops.v, Annotations.v, Owners.v, DeriveSpec.v, Contracts.v,
CompleteSpec.v, AgreeSpec.v, Causes.v, Steady.v, Found.v, Requests.v, Results.v. The theorems named in MANIFEST.json are in the files Prop*.v; beside each there is an `Example` with a concrete
input that meets the hypotheses. The other files are proofs.

## Properties

Full statements: `properties.jsonl`. "partial" means that the full statement is false of the model or not proved in full; the note says what is missing.

| id | modelled by | proof | status | theorems |
|----|----|----|----|----|
| C01 | `erase` takes out of a syntax tree whatever the macro may add; `edits` lists the allowed edits | every rewriting function makes only these edits (induction on recursion depth and syntax), and erasing undoes them | proved | `C01_erase`, `C01_only_edits` |
| C02 | evaluator of Eval.v with arbitrary user operations | an edit does not change the meaning (induction on the edit relation and on the bound of the evaluator); composed with C01 | proved | `C02_same_behaviour`, `C02_same_trace`, `C02_same_termination` |
| C03 | function-level exits of Exits.v; evaluator | exits relation for the output, evaluator for what leaves | partial | `C03_values_partial`, `C49_function`, `C50_function`, `C50_trace`, `C03_returns_partial`, `C03_labelled_block_refuted` |
| C04 | relation `done` of Changes.v / Tails.v for `match` | the visitor run is in the relation (induction on depth); relation inverted on arms | proved | `C04_arms`, `C04_exact`, `C04_nested`, `C04_skipped` |
| C05 | the same for `if` chains | induction on the chain | proved | `C05_chain`, `C05_exact`, `C05_nested`, `C05_branches`, `C05_missing_else` |
| C06 | Loops.v: which `break` leaves a loop by the rules of Rust | structural induction; counterexamples for label shadowing and `for` iterators | partial | `C06_loop`, `C06_breaks_partial`, `C06_shadowed_label_refuted`, `C06_for_iterator_refuted` |
| C07 | Exits.v and evaluator | relation between exits before and after; evaluation of the generated `match` | proved | `C07_function`, `C07_closure`, `C07_meaning`, `C07_name`, `C07_last`, `C07_last_exact` |
| C08 | Closures.v, Exits.v: closures and items inside the code | relation between those exits before and after; counterexample for async blocks | partial | `C08_closures_partial`, `C08_items_partial`, `C07_function`, `C08_async_refuted` |
| C09 | Scope.v: counting uses and declarations | additive invariant over the edits | proved | `C09_uses_match_declarations`, `C09_each_variant_once` |
| C10 | Scope.v: scope checker | invariant over the edits | proved | `C10_in_scope` |
| C11 | `builder_build` | injectivity of decimal names; list induction | proved | `C11_enum_shape`, `C11_own_enum_first` |
| C12 | `build` and the whole attribute | invariant that ties the variants of the context to the variants used | proved | `C12_too_few_is_error`, `C12_error_is_exact`, `C12_macro_statement_refuted`, `C12_between_refuted` |
| C13 | error list of the context | monotonicity invariant of all runs | proved | `C13_all_or_nothing`, `C13_errors_kept`, `C13_nested_errors_reported`, `C13_errors_stop` |
| C14 | `engine` with explicit recursion depth and explicit panics | measure: (attributes left, size); induction | proved | `C14_terminates`, `C14_no_panic`, `C14_unique` |
| C15 | Outside.v | induction on depth | proved | `C15_only_nested_changes`, `C15_identity` |
| C16 | inductive relation of NoValueSpec.v, from the documentation | equivalence by structural induction | proved | `C16_no_value`, `C16_no_value_stmt` |
| C17 | evaluator | structural induction over the relation; counterexamples | partial | `C17_skipped_no_value_partial`, `C17_label_refuted`, `C17_item_refuted` |
| C18 | Exits.v, Branches.v, Annotations.v | relations + inversion | partial | `C18_exits_partial`, `C18_questions_partial`, `C18_arm`, `C18_arm_visit`, `C18_branch`, `C18_break`, `C18_C23_accepted`, `C18_C23_rejected`, `C18_arm_rejected`, `C18_second_refuted` |
| C19 | Branches.v, Tails.v | relations + inversion; counterexample | partial | `C19_C20_arm`, `C19_C20_branch`, `C19_inner`, `C19_inner_arm`, `C19_inner_let`, `C19_twice_refuted` |
| C20 | Owners.v, Branches.v, Exits.v | relations + inversion; counterexample | partial | `C06_breaks_partial`, `C20_replaced`, `C20_others`, `C20_none_left`, `C01_only_edits`, `C18_exits_partial`, `C18_questions_partial`, `C19_C20_arm`, `C19_C20_branch`, `C24_only_markers`, `C20_outer_marker_refuted` |
| C21 | `ctx_new`, `make_child` | run of the visitor; counterexample for deeper nesting | partial | `C21_duplicate_rejected`, `C21_duplicate_rejected_let`, `C21_grandchild_refuted` |
| C22 | `make_child`, `join_child` | frame invariant | proved | `C22_expression`, `C22_statement`, `C22_no_traits`, `C22_no_traits_statement`, `C22_siblings`, `C22_nested_start` |
| C23 | Annotations.v, Nodes.v | every node of the output is free of the annotation; counterexamples | partial | `C23_gone_partial`, `C18_C23_accepted`, `C18_C23_rejected`, `C01_only_edits`, `C23_twice_refuted`, `C23_let_refuted`, `C23_arm_refuted`, `C23_marker_refuted` |
| C24 | Branches.v `only_markers` | induction on the changes | proved | `C24_only_markers`, `C24_nested` |
| C25 | token grammar of ArgsSpec.v | parser equivalent to the grammar | proved | `C25_grammar`, `C25_second_marker`, `C25_rejected` |
| C26 | ArgsSpec.v | `path_eq` equivalent to the description | proved | `C26_try_exit`, `C26_macros`, `C26_result`, `C26_names` |
| C27 | ArgsSpec.v: traits in a type | equivalence by induction on types | proved | `C27_enum_traits`, `C27_wanted`, `C27_exact` |
| C28 | DeriveEval.v: calls of generated methods | induction on the call history | proved | `C28_history`, `C28_consuming` |
| C29 | Contracts.v | invariants over call histories | proved | `C29_fused`, `C29_exact`, `C29_len`, `C29_both_ends` |
| C30 | DeriveSpec.v: documented names | list induction, table check by computation | proved | `C30_requested`, `C30_nothing_else` |
| C31 | the same | the same; counterexample | partial | `C31_supertraits_partial`, `C31_supertrait_refuted` |
| C32 | the same | the same; counterexample | partial | `C32_once_partial`, `C32_twice_refuted` |
| C33 | `projects_pin`, `drop_guards`, `unpin_impls` | list induction, table check | proved | `C33_guards` |
| C34 | where clause of the `Unpin` impl; pinned histories | induction on the history | proved | `C34_unpin`, `C34_pinned` |
| C35 | Contracts.v: error chains | induction on the chain | proved | `C35_source`, `C35_chain`, `C35_fmt` |
| C36 | transposition methods in DeriveEval.v | case analysis over variants | proved | `C36_transpose`, `C36_undo`, `C36_none_forgets_variant` |
| C37 | token lists of generics and fields | injectivity of printing | proved | `C37_transpose_accepted`, `C37_generated_accepted` |
| C38 | `local_ty` | case analysis | proved | `C38_let_type`, `C38_let_type_nested` |
| C39 | RefuseRun.v | case analysis on the run | proved | `C39_outcomes` |
| C40 | `attribute` composed with `enum_derive` | C11 + C37 + C39 | proved | `C40_end_to_end` |
| C41 | CompleteSpec.v: what each trait demands, from the documentation of the traits | table check lifted to all enums | proved | `C41_complete` |
| C42 | where clauses of generated implementations | table check lifted to all enums | proved | `C42_bounds` |
| C43 | AgreeSpec.v: meaning of where clauses | table check lifted to all enums | proved | `C43_applies`, `C43_types` |
| C44 | Causes.v: what an error may complain about; Steady.v: values with two branches | invariant over visitors; exact count of variants | proved | `C44_errors_have_causes`, `C44_one_error`, `C44_too_few`, `C44_accepted`, `C44_plain`, `C44_match_accepted`, `C44_if_accepted`, `C44_nested_accepted`, `C44_sound` |
| C45 | Found.v: traits found, code with one way out | two runs compared: every pass commutes with moving found traits to the arguments | proved | `C45_can_be_listed`, `C45_as_listed`, `C45_changes`, `C45_one_way_same`, `C45_one_way_fn`, `C45_one_way_let`, `C45_always_as_listed_refuted` |
| C46 | Values.v: covered code, results in a variant | two evaluations compared, one pass of the attribute after the other | proved | `C46_expression`, `C46_let`, `C46_closure` |
| C47 | Requests.v: a condition on every attribute of the code | induction over the relation of changes (Changes.v) | proved | `C47_accepted`, `C47_refused`, `C47_place`, `C25_rejected` |
| C48 | Results.v: a relation between the results of executions, and checks in the original code | induction over the relation of changes (Changes.v) with the evaluator (Eval.v) | proved | `C48_function`, `C48_closure` |
| C49 | Annotated.v: the class of annotated code, written with the specification of what counts as no value | mutual induction over that class with the evaluator (Eval.v) and the relation of changes (Changes.v) | proved | `C49_function`, `C49_expression`, `C49_let`, `C49_closure` |
| C50 | Inner.v: the class of code, and a value in a variant of the own enum | C02 for the end and the value up to wrappers; mutual induction over the class, on the expanded code alone, for its end, and induction over the syntax for its returns and the breaks of its loops | proved | `C50_function`, `C50_trace`, `C50_expression`, `C50_let`, `C50_closure` |
| C51 | Alone.v: parts replaced by the result of their attribute alone | a relation between contexts that differ in markers and root flag is kept by every function of the engine (Alike.v); induction over the depth of the recursion | proved | `C51_parts`, `C51_errors`, `C51_accepted`, `C51_name` |
| C52 | Spare.v: code without branches, exits and markers; other attributes in it | simulation of the visitor without traits by the one with traits, kept by every function of the engine (SpareRun.v); such code stays such code under all edits (SpareEdits.v); induction over the depth of the recursion | proved | `C52_same`, `C52_refused`, `C52_parts`, `C52_accepted` |
| C53 | Swap.v: answers that are the same but for the traits of the enum | every function of the engine commutes with a change of the traits of the context (Retag.v, parametric in the change, also used for C45); the enum is put in at the very end (SwapRun.v); composed with C45 for traits that are found | proved | `C53_traits_only`, `C53_found`, `C53_refused` |
| C54 | Rename.v: code with new names for macros and enums, answers that are the same but for these | every function commutes with injective renamings of macros and any renaming of enums in code and context, by induction on the syntax and on the levels of recursion (RenameRun.v); the edits add no attributes (RenamePlain.v) and no markers of inner attributes (RenameKept.v, RenameStay.v) | proved | `C54_marker_name`, `C54_refused`, `C54_nested_attributes` |
| C55 | Rename.v | the same lemmas as for C54 | proved | `C55_enum_name`, `C55_refused`, `C55_nested_attributes` |

Notes:

- C02: Expanded code that uses a generated enum where the compiler does not accept it (e.g. as a condition) is stuck and excepted. Try blocks are stuck in the semantics; the From conversion of ? is not modelled.
- C03: Proved: on every execution the value that leaves is the original one in one variant of the enum, for bodies without further annotations (C03_values_partial), with markers, #[nested] and #[never] (C49_function), and, up to what the nested attributes wrap, with nested attributes, loops at the end included (C50_function); every return of the function itself is wrapped once, in all bodies. The full statement is false for branches that only look as if they gave no value (C17) and breaks assigned to the wrong loop (C06), shown by C03_labelled_block_refuted. Not in the classes: return m!(x) and break m!(x) with a marker m, and breaks in arguments of macros. For attributes that list at least one trait; by C45 traits found by type analysis act as if listed.
- C04: Which arms are skipped is the small relation arm_skipped of Tails.v (C16-C20). For attributes that list at least one trait; by C45 traits found by type analysis act as if listed.
- C05: The ifs of the chain carry no annotations of their own but for those in front of the whole expression. For attributes that list at least one trait; by C45 traits found by type analysis act as if listed.
- C06: Holds unless an inner loop or block has the same label or a break stands in the iterator of a for; false for these, shown by the two refutations. For attributes that list at least one trait; by C45 traits found by type analysis act as if listed.
- C07: For attributes that list at least one trait; by C45 traits found by type analysis act as if listed.
- C08: Proved for closures and items at any depth; try blocks keep their ? (C07_function). False for async blocks, shown by C08_async_refuted.
- C09: The statement per enum assumes that generated enum names do not collide (identical sibling code has the same hash); the counting statement holds without that.
- C12: A macro call statement under the attribute is the one exception; shown by C12_macro_statement_refuted.
- C14: For syntax trees in which every else is followed by a block or an if, as the grammar demands.
- C17: False for a labelled block left by its break and for a block that ends in an item, shown by the two refutations; holds otherwise.
- C18: Proved for arms, branches, return, ? and break; #[never(..)] and #[never = ..] are rejected at any depth if they are the first annotation of that name in their place. A second one in the same place is accepted, shown by C18_second_refuted. For attributes that list at least one trait; by C45 traits found by type analysis act as if listed.
- C19: Wrapped twice if #[nested] stands on an expression whose branches are wrapped anyway, shown by C19_twice_refuted. For attributes that list at least one trait; by C45 traits found by type analysis act as if listed.
- C20: Proved: each marker in a place that its attribute owns becomes one variant applied to the argument and none is left, other macros stay, and return, ?, arms and branches directly on a marker of the same attribute are not wrapped a second time. Refuted: an arm of a nested attribute that holds a marker of the outer one is wrapped a second time, because the outer attribute has replaced the marker by then. For attributes that list at least one trait; by C45 traits found by type analysis act as if listed.
- C21: Holds where the visitors know the name; false for an attribute inside a nested one, shown by C21_grandchild_refuted.
- C23: Proved: all three annotations are gone from the output if each stands where it has a meaning and none twice in one place (tidy_code); #[rec] is rejected; everything else stays (C01_only_edits). The four refutations show annotations that survive otherwise. For attributes that list at least one trait; by C45 traits found by type analysis act as if listed.
- C24: For attributes that list at least one trait; by C45 traits found by type analysis act as if listed.
- C28: The held value, its implementations, arguments and results are arbitrary. Error::source is not forwarded (C35).
- C31: Holds for needed traits that enum_derive itself supports; false for needed traits that only #[derive] supports: #[enum_derive(Copy)] adds no Clone, shown by C31_supertrait_refuted.
- C32: False if two listed traits need the same unlisted trait, shown by C32_twice_refuted; holds otherwise.
- C37: The printed parameter and type lists are compared as token lists.
- C41: What each trait demands was written from the documentation of the traits.
- C43: The associated types inherited from supertraits are listed in AgreeSpec.v from the documentation of the traits.
- C44: The causes are listed in Causes.v. C44_match_accepted and C44_if_accepted are for code without other attributes inside; C44_nested_accepted is for code with attributes inside, each on a match or if with two branches that surely have values (Steady.v). Traits found in a type: C45.
- C45: The traits found are those of C27. C45_always_as_listed_refuted shows that the exception is needed: in code with one way out markers stay if the trait is found, but are expanded if it is listed.
- C46: The conditions are in the quantifier; that they are needed is shown by C03_labelled_block_refuted and the refutations of C06. For attributes that list at least one trait; by C45 traits found by type analysis act as if listed.
- C47: The converse of C44 for nested attributes. The annotations nested, never and rec are in C18 and C23, a missing else is in C05. C12_between_refuted shows that an attribute is not always accepted as nested one when it is accepted alone.
- C48: The evaluator knows no types, so the original code is run with its operands of ? checked to be Results (strict); the theorems also say that the check changes nothing unless it fails. The shape of what takes the place of a ? is in C07, its local meaning in C07_meaning. For attributes that list at least one trait; by C45 traits found by type analysis act as if listed.
- C49: Code without annotations is a special case (covered_body_spread in AnnotatedTop.v). Not in the class: #[nested] and markers inside loops whose value is wrapped, return m!(x), nested auto_enum attributes (C50). For attributes that list at least one trait; by C45 traits found by type analysis act as if listed.
- C50: The operations must not look at the generated enums (respects in Same.v; met by all traced oracles, traced_respects). An expanded run that is stuck, because an operation of the language such as a condition is given a generated enum, which the compiler rejects, is excepted as in C02. For attributes that list at least one trait; by C45 traits found by type analysis act as if listed.
- C51: Attributes with marker = ... are excepted in the statement; C51_condition shows that they have to be. C51_errors and C51_accepted are about code without an attribute inside a part that has one.
- C52: Closures under the attribute itself (whose body is what it works on) and let statements with else are not covered. C52_condition shows a return that is wrapped.
- C53: C53_condition shows that at least one trait is needed (an attribute without arguments leaves the code alone), C53_let that the type of a let can differ.
- C54: The two runs are compared with the same name for the enum. C54_reserved shows that names such as panic have to be excluded, C54_nested that the default name differs from others below an inner attribute, C54_kept_condition that inner attributes must not choose the new name.
- C55: C55_condition shows that the code must not mention the name.

## Trusted base

- Coq 8.16.1: its kernel, and `vm_compute` in examples, refutations and table checks.
- `Print Assumptions` stands beneath every theorem of the files Prop*.v and prints "Closed under the global context" for each: no axioms are used.
  (The standard library loads the module `Coq.ssr.ssrunder`, whose module type shows up in a list of all loaded constants; no theorem depends on it.)
- That the model is a faithful reading of /repo. Each definition cites what it models. Nothing was executed.
- The parts that are not in /repo and were modelled from their documentation, from the expansions in /repo/tests/expand and from memory:
  - syn 2: the shape of the syntax tree, the order of `visit_mut`, `Path::is_ident`, parsing of paths and of comma-separated lists;
  - derive_utils: `EnumData::parse`, `EnumImpl::from_trait`, `append_items_from_trait`, `push_method`, `derive_trait`, bounds on fields;
  - the meaning of Rust programs (Eval.v, DeriveEval.v);
  - which methods, associated types and supertraits the supported traits have (CompleteSpec.v, AgreeSpec.v), and which traits are documented (DeriveSpec.v, from src/lib.rs).

## Not modelled, or simplified

- Spans, punctuation without choice, doc comments, error text beyond its kind; `compile_error!` output is the list of error kinds.
- Macro tokens: a macro call has a path and either the one expression its tokens parse as, or nothing.
- Patterns other than bindings and constructors, types other than paths and `impl Trait`, items other than functions and generated enums are opaque.
- `EOther`: all expression kinds that the code treats alike (array, assignment, binary, call arguments, ...), with their sub-expressions in visiting order.
- The hash that makes enum names unique is an arbitrary function of the node. Theorems that need different names say so (C09).
- `#[auto_enum]` on `impl`/`trait` items and other items is an error result, as in the code.
- Features of the crate are an arbitrary predicate for `enum_derive` and a Boolean for type analysis.
- In the semantics, `try` blocks are stuck, `?` does no `From` conversion, async blocks are values that are run when called like a closure without parameters.
- Type checking is not modelled: "applies" (C34, C42, C43) interprets where clauses under an arbitrary assignment of traits and associated types.
- Most theorems about branches and exits are stated for attributes that list at least one trait; without a trait list the attribute does
  nothing itself (C15) unless type analysis finds a trait (C27, C38), and then it acts as if that trait were listed (C45).

## Findings

Places where the code does not do what its documentation, or the property, says. Those with a theorem name are proved of the model (`.._refuted`), the others were
found while reading and modelling.

1. `#[enum_derive]` implements a trait twice when two listed traits need the same unlisted one: `C32_twice_refuted`
   (also `Fn, FnMut` for FnOnce, and `BufRead, io::BufRead` for Read).
2. A needed trait that only `#[derive]` knows is dropped: `#[enum_derive(Copy)]` adds no `Clone`: `C31_supertrait_refuted`.
3. A marker name used twice is not noticed when an attribute without that marker stands between: `C21_grandchild_refuted`.
4. A labelled block that ends in `return` but is left by `break 'l value` counts as producing no value and is skipped: `C17_label_refuted`, `C03_labelled_block_refuted`.
5. A block whose last statement is an item definition counts as producing no value: `C17_item_refuted`.
6. A `break 'l` inside an inner loop or block that has the same label is wrapped though it leaves only the inner one: `C06_shadowed_label_refuted`.
7. A `break` in the iterator expression of an inner `for` leaves the outer loop but is not wrapped: `C06_for_iterator_refuted`.
8. `#[nested]` on an expression whose branches are wrapped anyway wraps them twice: `C19_twice_refuted`.
9. A marker of the outer attribute in an arm of a nested one is replaced first, so that the nested attribute wraps the result again: `C20_outer_marker_refuted`.
10. `#[auto_enum(T)]` on a macro call statement does nothing, silently: `C12_macro_statement_refuted`.
11. Only the first of two equal helper attributes is checked and removed: `C18_second_refuted`, `C23_twice_refuted`.
12. Helper attributes beside a nested `#[auto_enum]` on a `let`, `#[auto_enum]` on an arm, and helper attributes in the argument of a marker stay in the output:
    `C23_let_refuted`, `C23_arm_refuted`, `C23_marker_refuted`.
13. `return` and `?` inside an async block are rewritten as if they belonged to the function: `C08_async_refuted`.
14. `FnVisitor` counts `?` in `try` blocks, while the rewriting skips them.
15. `"error::Error"` is in the list of names for type analysis but has no derive of that name; with type analysis a trait found twice is listed twice (`C27`).
16. An attribute with no variants but with a nested attribute is accepted without an enum (C12 states this).
17. An arm whose tail has its own `#[auto_enum]` is skipped; an arm with `#[nested]` anywhere inside is skipped, so that its own value is not wrapped.
18. `let x: impl Trait` keeps its type, which rustc rejects, if all its traits are already in the arguments (C38).
19. The derive for `Coroutine` uses a type parameter `R` that can clash with one of the enum.
20. After an error the remaining passes still run, but visit nothing (C13).
21. A last expression of an unsupported form is left unwrapped beside wrapped `return`s (rustc then reports a type error).
22. `return marker!(x)` in the code of a nested attribute with the same marker name as the outer one: the outer attribute takes the marker and the nested one wraps the `return` again.
23. `#[nested(..)]` on a `let` without initialiser is accepted and removed.
24. Names of the generated enums are hashes of the code: two identical sibling expressions declare enums of the same name (in separate blocks).
25. With type analysis and no trait arguments, markers in a function without branches and with at most one `return` are left in place: `C45_always_as_listed_refuted`.
26. An attribute without branches of its own that contains another attribute is accepted alone, but refused inside a third one, which expands the innermost attribute first: `C12_between_refuted`.
