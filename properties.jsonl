{"id": "C01", "title": "Expansion only adds wrappers", "statement": "If `#[auto_enum(..)]` succeeds, then removing from its output the generated enum item, the block put around it, the `__EnumH::__VariantN(..)` wrappers, the `match` that replaces `?`, and the helper attributes gives back exactly the annotated code (with `marker!(e)` read as `e`). No expression, statement, pattern, attribute or branch of the user is lost, duplicated, reordered or moved.", "quantifier": "every annotated statement, expression or function, every argument list, with any nesting of further `#[auto_enum]`, `#[nested]`, `#[never]` and marker macros", "why_tests_cant": "Tests run a few dozen fixed programs; a rewrite that loses or reorders a statement only under some nesting of blocks, loops, children and markers is invisible to them.", "anchors": ["src/auto_enum/mod.rs: attribute, expand_expr, build_expr, expand_parent_*", "src/auto_enum/expr.rs: child_expr", "src/auto_enum/visitor.rs: Visitor, Dummy, VisitStmt", "src/utils.rs: replace_expr, replace_block, expr_call"]}
{"id": "C02", "title": "Expansion preserves the meaning of every execution", "statement": "Running the expanded code has the same control flow and effects as running the annotated code: on every execution both finish the same way (normal end, break, continue, return, panic, or not at all) with the same result and the same final state, up to the variant wrappers around values.", "quantifier": "every annotated expression or function, every initial state, every execution (any number of loop iterations and calls), and every behaviour of the operations the user's code performs, as long as those operations do not look at the wrapper", "why_tests_cant": "It is a statement about all executions of all expanded programs; tests execute finitely many.", "anchors": ["src/auto_enum/mod.rs: attribute", "src/auto_enum/expr.rs", "src/auto_enum/visitor.rs", "src/utils.rs"]}
{"id": "C03", "title": "Every value that leaves a function returning `impl Trait` is wrapped exactly once", "statement": "When `#[auto_enum(Trait)]` accepts a function that returns `impl Trait` whose last expression is a supported branch form, then on every execution every value that leaves the function, by `return` or by falling off the end, is one variant of the single generated enum around the value the original function would have returned.", "quantifier": "every such function body and every execution", "why_tests_cant": "The exits of a function are unbounded in number and nesting; a missed or doubly wrapped exit on one unusual path is a type error or wrong value only for that shape of program.", "anchors": ["src/auto_enum/expr.rs: child_expr, is_unreachable", "src/auto_enum/visitor.rs: Visitor::visit_return", "src/auto_enum/mod.rs: expand_parent_item_fn"]}
{"id": "C04", "title": "Match arms are numbered in order and each is wrapped at most once", "statement": "For an annotated `match`, each arm that is not skipped gets its own new variant, in source order, its body becomes the argument of that variant and the arm ends with a comma; skipped arms, patterns, guards and the scrutinee are not changed.", "quantifier": "every match with any number of arms, any arm bodies and attributes", "why_tests_cant": "Ranges over the number and shape of arms; tests fix at most a handful of arms.", "anchors": ["src/auto_enum/expr.rs: visit_last_expr_match", "src/utils.rs: replace_expr, expr_call", "src/auto_enum/context.rs: Builder::next_expr"]}
{"id": "C05", "title": "`if`/`else if`/`else` chains: every branch is wrapped, a missing `else` is rejected", "statement": "For an annotated `if` chain of any length each branch block that is not skipped becomes a block holding only the variant applied to the original block, in source order; conditions are unchanged. A chain that does not end in `else` makes the expansion fail with \"`if` expression missing an else clause\".", "quantifier": "every if/else-if chain of any length", "why_tests_cant": "Chain length and branch contents are unbounded.", "anchors": ["src/auto_enum/expr.rs: visit_last_expr_if", "src/utils.rs: replace_block"]}
{"id": "C06", "title": "Loop results: exactly the `break`s that leave the annotated loop are wrapped", "statement": "For an annotated `loop`, each `break` that leaves this loop has its value wrapped in its own variant (`()` when it has none), unless it is marked `#[never]` or holds a marker; no other `break` is changed.", "quantifier": "every loop body, with any nesting of labelled and unlabelled loops, blocks, closures and async blocks", "why_tests_cant": "Which loop a `break` leaves depends on labels and nesting of unbounded depth.", "anchors": ["src/auto_enum/expr.rs: visit_last_expr_loop, LoopVisitor"]}
{"id": "C07", "title": "`?` in functions returning `Result<T, impl Trait>`", "statement": "In a function or closure with two or more `?` at its own level that returns `Result<T, impl Trait>`, each such `e?` is replaced so that an `Ok(v)` of `e` yields `v` and an `Err(x)` of `e` leaves the function with `Err(variant(x))`, one variant per `?`, and the last expression is left alone.", "quantifier": "every function body and every execution", "why_tests_cant": "Ranges over all positions of `?` and both outcomes at each; tests fix the positions.", "anchors": ["src/auto_enum/visitor.rs: Visitor::visit_try, FnVisitor", "src/auto_enum/mod.rs: expand_parent_item_fn, expand_expr"]}
{"id": "C08", "title": "Inner functions keep their own `return` and `?`", "statement": "`return` and `?` that belong to a closure, an async block or an item nested in the annotated function are not rewritten by the function's attribute.", "quantifier": "every function body with any nesting of closures, async blocks, try blocks and items", "why_tests_cant": "Ranges over all nestings.", "anchors": ["src/auto_enum/visitor.rs: Scope::check_expr, Visitor::visit_return, Visitor::visit_try, visit_item_mut"]}
{"id": "C09", "title": "Each variant of a generated enum is constructed at exactly one place", "statement": "If the expansion succeeds and generates an enum with n variants, they are named `__Variant0` .. `__Variant{n-1}`, each is constructed at exactly one place of the output, and no other variant of that enum is mentioned. (So each type parameter of the enum is the type of exactly one branch.)", "quantifier": "every annotated item, every nesting of children and markers", "why_tests_cant": "Needs counting over all outputs; a duplicate or unused variant appears only for particular interleavings of branches, returns, markers and nested attributes.", "anchors": ["src/auto_enum/context.rs: Builder::next_expr, Context::next_expr_with_attrs, replace_boxed_expr", "src/auto_enum/visitor.rs", "src/auto_enum/expr.rs"]}
{"id": "C10", "title": "Every constructor the expansion writes is in scope", "statement": "In a successful output every `__EnumH::__VariantN(..)` that the expansion wrote stands inside the block (or function body) that declares `enum __EnumH` with a variant `__VariantN`, also when several annotated items are nested in one another.", "quantifier": "every annotated item and every nesting", "why_tests_cant": "Scope of nested expansions ranges over all nestings and interleavings.", "anchors": ["src/auto_enum/context.rs: Context::build, Builder::build", "src/auto_enum/mod.rs: build_expr, expand_parent_expr, expand_parent_local, expand_parent_item_fn"]}
{"id": "C11", "title": "Shape of the generated enum", "statement": "A generated enum has one type parameter per variant, variant i holds exactly one field whose type is parameter i, all names are distinct, and its `#[enum_derive(..)]` lists the traits given by the user in the order given, followed by those found in the type; it is inserted exactly once, as the first statement.", "quantifier": "every number of variants and every trait list", "why_tests_cant": "Ranges over all variant counts (also above 9, where names get longer) and trait lists.", "anchors": ["src/auto_enum/context.rs: Builder::build, Builder::next_expr", "src/auto_enum/mod.rs: build_expr, expand_parent_item_fn"]}
{"id": "C12", "title": "Too few branches is always an error", "statement": "If an attribute with a trait list produces exactly one variant, or none while no nested `#[auto_enum]` is inside it, the expansion fails with the \"required two or more\" error that says `only one` or `no`, and speaks of marker macros only when the annotated statement ends in `;`. The one exception is a macro call statement (`#[auto_enum(T)] m!(..);`), on which the attribute silently does nothing. With two or more variants this error is never reported.", "quantifier": "every annotated item", "why_tests_cant": "Ranges over all programs.", "anchors": ["src/auto_enum/context.rs: Context::build", "src/auto_enum/mod.rs"]}
{"id": "C13", "title": "All or nothing, and no error is forgotten", "statement": "The macro either returns the expanded code with no error, or only compile errors: code is returned only if no problem was found in the item or in any nested `#[auto_enum]`. An error found in a nested attribute is always reported by the outermost one. Once an error is recorded no further code is visited, and errors stay in the order in which they were found.", "quantifier": "every input, every nesting, every position of the faulty construct", "why_tests_cant": "Ranges over where and how many faults are placed.", "anchors": ["src/auto_enum/context.rs: error, check, has_error, join_child, make_child", "src/auto_enum/visitor.rs: has_error guards", "src/auto_enum/mod.rs: attribute"]}
{"id": "C14", "title": "Expansion terminates and does not panic", "statement": "For every input the syntax parser accepts, the macro terminates and none of its internal panics (`unreachable!`, `unwrap`, failed debug assertions) is reached, although expansion rewrites the code it is walking over and re-visits nested annotated code.", "quantifier": "every syntax tree of any size and depth, every argument list", "why_tests_cant": "Termination and absence of panics over an infinite input set.", "anchors": ["src/auto_enum/visitor.rs", "src/auto_enum/expr.rs: unreachable!(\"wrong_if\")", "src/auto_enum/context.rs: debug_assert!, unwrap", "src/auto_enum/mod.rs"]}
{"id": "C15", "title": "`#[auto_enum]` without arguments changes nothing", "statement": "An attribute with an empty argument list (and no trait found by type analysis) returns the annotated code unchanged, apart from expanding further `#[auto_enum]` attributes nested in it; without nested ones it is the identity and never fails.", "quantifier": "every annotated item", "why_tests_cant": "Identity over all programs.", "anchors": ["src/auto_enum/context.rs: is_dummy, dummy", "src/auto_enum/visitor.rs: Dummy, VisitStmt"]}
{"id": "C16", "title": "A branch is skipped exactly in the documented cases", "statement": "A branch counts as producing no value exactly when it is, or ends in (through blocks, unsafe blocks, parentheses, method-call receivers, a `match` all of whose arms are such, or `let x = ..;`), `return`, `break`, `continue`, `panic!(..)`, `unreachable!(..)`, `None?`, `Err(..)?`, a marker macro, an item definition, or an expression annotated `#[never]` or `#[auto_enum]`.", "quantifier": "every expression of any depth", "why_tests_cant": "Ranges over all expressions.", "anchors": ["src/auto_enum/expr.rs: is_unreachable, is_unreachable_macro, is_unreachable_stmt", "src/lib.rs: documentation \"Expression that no value will be returned\""]}
{"id": "C17", "title": "Skipping a branch never loses a value", "statement": "A branch that is skipped because it counts as producing no value (and is not skipped by the user's own `#[never]` or by a nested attribute) never finishes normally with a value on any execution.", "quantifier": "every branch expression, every execution and every state", "why_tests_cant": "A statement about all executions of all skipped branches.", "anchors": ["src/auto_enum/expr.rs: is_unreachable"]}
{"id": "C18", "title": "`#[never]` branches get no variant", "statement": "An arm, branch expression, `return`, `?` or `break` annotated `#[never]` is left without a variant; `#[never(..)]` or `#[never = ..]` is rejected.", "quantifier": "every position of the annotation and every content below it", "why_tests_cant": "Ranges over all positions and contents.", "anchors": ["src/auto_enum/expr.rs: skip, is_unreachable, LoopVisitor", "src/auto_enum/visitor.rs: find_remove_attrs, visit_return, visit_try"]}
{"id": "C19", "title": "`#[nested]` flattens inner branches into the same enum", "statement": "A branch that contains a `#[nested]` annotation is not wrapped itself; the branches of each annotated inner expression are wrapped with variants of the same enum, so no value is wrapped twice.", "quantifier": "every nesting depth and placement of `#[nested]`", "why_tests_cant": "Nesting depth is unbounded.", "anchors": ["src/auto_enum/visitor.rs: visit_nested, find_nested", "src/auto_enum/expr.rs: skip"]}
{"id": "C20", "title": "Marker macros", "statement": "Each expression `m!(e)` where `m` is the marker name of the attribute that owns that place becomes one variant applied to `e`, keeping the attributes of the macro; macros with other names are never changed; `return`, `break`, `?`, arms and branches that directly hold a marker are not wrapped a second time.", "quantifier": "every placement of markers, every marker name, any other macros", "why_tests_cant": "Ranges over all placements and names.", "anchors": ["src/auto_enum/visitor.rs: visit_marker_macro", "src/auto_enum/context.rs: is_marker_macro, is_marker_expr, replace_boxed_expr"]}
{"id": "C21", "title": "A marker name already used by an enclosing attribute is rejected", "statement": "A nested `#[auto_enum(.., marker = m)]` whose `m` is already the marker name of an enclosing attribute makes the expansion fail with the duplicate-name error.", "quantifier": "every nesting depth and every pair of enclosing and nested attribute", "why_tests_cant": "Nesting depth is unbounded; the repository tests only direct nesting.", "anchors": ["src/auto_enum/context.rs: Context::new, make_child, join_child", "src/auto_enum/visitor.rs: VisitStmt"]}
{"id": "C22", "title": "Nested attributes do not leak into the enclosing one", "statement": "Expanding a nested `#[auto_enum]` leaves the enclosing attribute's marker names, marker in force, trait list, rewriting mode and position as they were; sibling attributes do not see each other's marker names.", "quantifier": "every sequence and nesting of attributes", "why_tests_cant": "Ranges over all sequences of siblings and nestings.", "anchors": ["src/auto_enum/context.rs: make_child, join_child"]}
{"id": "C23", "title": "Helper attributes do not survive", "statement": "In a successful expansion, the `#[nested]` and `#[never]` annotations and the nested `#[auto_enum]` attributes the expansion has dealt with are gone from the output, other attributes are kept in order, and a `#[rec]` is rejected.", "quantifier": "every placement of the attributes on expressions, arms and let statements", "why_tests_cant": "Ranges over all placements.", "anchors": ["src/auto_enum/visitor.rs: find_remove_attrs, VisitStmt", "src/utils.rs: find_remove, Attrs"]}
{"id": "C24", "title": "A statement ending in `;` only uses markers", "statement": "If the annotated expression is followed by `;`, its branches, loops and closures are not visited: the only variants are those of marker macros and the value of the statement is not wrapped.", "quantifier": "every expression statement", "why_tests_cant": "Ranges over all expressions.", "anchors": ["src/auto_enum/mod.rs: expand_parent_expr", "src/auto_enum/context.rs: visit_last"]}
{"id": "C25", "title": "Argument grammar", "statement": "The argument list of `#[auto_enum]` is accepted exactly when it is a comma-separated list, with optional trailing comma, of trait paths and at most one `marker = name`; the traits are kept in the order written, `marker = name` may stand anywhere, and a trait named `marker` without `=` is a trait. A second `marker =` is rejected.", "quantifier": "every token sequence", "why_tests_cant": "The language of argument lists is infinite.", "anchors": ["src/auto_enum/context.rs: Args::parse"]}
{"id": "C26", "title": "Recognised names", "statement": "`None`, `Err`, `Result`, `panic` and `unreachable` are recognised when written as that last name alone or in full from `std` or `core`, and in no other way; in particular a partial path or a path from another crate is not recognised.", "quantifier": "every path of any length", "why_tests_cant": "Ranges over all paths.", "anchors": ["src/utils.rs: path_eq", "src/auto_enum/expr.rs", "src/auto_enum/mod.rs"]}
{"id": "C27", "title": "Traits taken from the type", "statement": "With type analysis, the traits added to the enum are exactly the bounds of the `impl Trait` types found anywhere in the annotated type that are supported by name and are not already listed in the arguments, inner types before outer ones.", "quantifier": "every type of any depth and every argument list", "why_tests_cant": "Types are unbounded in depth.", "anchors": ["src/auto_enum/type_analysis.rs: collect_impl_trait", "src/auto_enum/mod.rs"]}
{"id": "C28", "title": "A derived enum behaves like the value it holds, for any call history", "statement": "For an enum with `#[enum_derive(Trait)]`, every sequence of calls of the forwarded trait methods on a value holding variant i gives the same results and leaves the same inner state as the same sequence of calls on the inner value, and the value stays in variant i.", "quantifier": "every number of variants, every variant, every inner implementation, every finite sequence of method calls with any arguments", "why_tests_cant": "Ranges over all histories and all implementations.", "anchors": ["src/derive/**: derive", "src/enum_derive.rs: expand"]}
{"id": "C29", "title": "Iterator contracts carry over to the enum", "statement": "If every inner iterator obeys the contract of `FusedIterator` (after `None` only `None`), `ExactSizeIterator`/`TrustedLen` (`size_hint` is exact), or `DoubleEndedIterator` (both ends meet), then so does the enum; `len` agrees with `size_hint`.", "quantifier": "every inner implementation, every call history", "why_tests_cant": "`TrustedLen` is an unsafe contract about all histories.", "anchors": ["src/derive/core/iter/*.rs"]}
{"id": "C30", "title": "Every requested trait is implemented or derived", "statement": "If `#[enum_derive(T1, .., Tn)]` succeeds then for each Ti either the generated implementation for Ti (or for its alias such as `fmt::Debug` for `Debug`) is emitted or Ti is passed on to `#[derive(..)]`; traits the crate does not know are passed on in the order written; nothing else is passed to `#[derive]`.", "quantifier": "every list of trait names and every feature selection", "why_tests_cant": "Ranges over all trait lists.", "anchors": ["src/enum_derive.rs: expand, get_derive, exists_alias"]}
{"id": "C31", "title": "Missing supertraits are added", "statement": "If a requested trait needs other traits (as documented, e.g. `DoubleEndedIterator` needs `Iterator`, `Copy` needs `Clone`) that the user did not list, the output also implements or derives those.", "quantifier": "every list of trait names and every feature selection", "why_tests_cant": "Ranges over all trait lists; tests use a few.", "anchors": ["src/enum_derive.rs: get_trait_deps, expand", "src/lib.rs: documentation of enum_derive"]}
{"id": "C32", "title": "No trait is implemented twice", "statement": "If the user's list names no trait twice (aliases such as `Debug` and `fmt::Debug` may both be given), no trait is implemented twice by the output.", "quantifier": "every list of trait names and every feature selection", "why_tests_cant": "Ranges over all trait lists; a clash needs a particular combination.", "anchors": ["src/enum_derive.rs: expand, exists_alias"]}
{"id": "C33", "title": "Pin projection is always guarded", "statement": "If any generated method projects a `Pin<&mut Enum>` to a field, the output also contains the conditional `Unpin` implementation and the item that forbids a `Drop` implementation, each exactly once; and if no generated method does so, neither is emitted.", "quantifier": "every list of trait names, every feature selection, every enum", "why_tests_cant": "This is a soundness condition over all trait lists.", "anchors": ["src/enum_derive.rs: expand, DeriveContext", "src/derive/**: cx.needs_pin_projection()"]}
{"id": "C34", "title": "The enum is `Unpin` only if all its fields are, and pinned fields never move", "statement": "The generated `Unpin` implementation applies to an enum type only if it applies to every field type. Through any history of pinned method calls the inner value is only ever reached at the address it was pinned at.", "quantifier": "every number of variants and field types, every call history", "why_tests_cant": "Soundness statement over all types and histories.", "anchors": ["src/enum_derive.rs: expand", "src/derive/core/future.rs", "src/derive/external/**"]}
{"id": "C35", "title": "`Error::source` points at the wrapped error", "statement": "For an enum deriving `Error`, `source()` of a value holding variant i is the held error itself, and `Display`/`Debug` output is that of the held error.", "quantifier": "every number of variants, every error value, error chains of every length", "why_tests_cant": "Chains are of unbounded length.", "anchors": ["src/derive/std/error.rs", "src/derive/core/fmt/*.rs"]}
{"id": "C36", "title": "Transposing keeps the variant and the payload", "statement": "The generated `transpose`, `transpose_ok` and `transpose_err` methods turn a variant-i value holding `Some(x)`, `Ok(x)` or `Err(x)` into `Some`, `Ok` or `Err` of the variant-i value holding x, and leave `None` and the untransposed side unchanged. From a transposed result the value before the call can be recovered (from `None` and the untransposed side it cannot, since these do not tell the variant).", "quantifier": "every number of variants, every variant and payload", "why_tests_cant": "Ranges over the number of variants.", "anchors": ["src/derive/ty_impls/transpose.rs"]}
{"id": "C37", "title": "When transposition is refused", "statement": "`#[enum_derive(Transpose)]` is accepted exactly when the generic parameters of the enum, as written, are the field types in order; an enum generated by `#[auto_enum]` always qualifies; when refused, the whole attribute fails and nothing is emitted.", "quantifier": "every generics list and every field list", "why_tests_cant": "Ranges over all generics and field lists.", "anchors": ["src/derive/ty_impls/transpose.rs: check_fields", "src/enum_derive.rs: expand"]}
{"id": "C38", "title": "Let statements keep or lose their type annotation correctly", "statement": "With type analysis, an annotated `let` loses its type annotation exactly when at least one trait was taken from it; otherwise pattern and type stay as written; without the feature they always stay.", "quantifier": "every let statement, every type", "why_tests_cant": "Ranges over all types.", "anchors": ["src/auto_enum/mod.rs: expand_parent_local", "src/auto_enum/type_analysis.rs"]}
{"id": "C39", "title": "When `#[enum_derive]` is refused", "statement": "`#[enum_derive(..)]` fails only for one of three causes, reported in this order: the item is not an enum with at least one variant, each with exactly one unnamed field and no discriminant; the argument is not a list of paths separated by commas; `Transpose` is requested and the generic parameters are not the field types. In every other case it succeeds.", "quantifier": "every enum, every token list, every feature selection", "why_tests_cant": "The space of enums and argument lists is infinite; tests show single accepted or rejected inputs, not that there is no other cause of failure.", "anchors": ["src/enum_derive.rs: expand, parse of the arguments", "src/derive/ty_impls/transpose.rs: check_fields"]}
{"id": "C40", "title": "Generated enums can always be derived for", "statement": "For every enum that a successful `#[auto_enum(T1, ..)]` writes, the `#[enum_derive(..)]` beside it is accepted with any list of traits, and its output implements each Ti that is supported; its variants have distinct names, and each holds one field of its own type parameter.", "quantifier": "every annotated code, every trait list, every feature selection, every generated enum", "why_tests_cant": "It joins two macros over every program; a test checks one expansion of one program.", "anchors": ["src/auto_enum/context.rs: build, EnumBuilder", "src/enum_derive.rs: expand"]}
{"id": "C41", "title": "Generated implementations are complete", "statement": "The implementation generated for a supported trait has every required method of that trait with the right receiver and number of parameters, all its associated types and no others, no method twice, and is `unsafe` exactly if the trait is.", "quantifier": "every supported trait under each of its names, every enum, every feature selection", "why_tests_cant": "Most traits are behind optional features or other crates' versions; the tests build only some combinations.", "anchors": ["src/derive/**: derive", "src/enum_derive.rs: get_derive"]}
{"id": "C42", "title": "An implementation applies only if every field implements the trait", "statement": "Every generated trait implementation has, for each field type, the bound that the field type implements the same trait: whenever its where clause holds, every field implements the trait.", "quantifier": "every enum, every supported trait, every way the bounds can hold", "why_tests_cant": "A missing bound shows only for a type that lacks the trait; there is no finite set of such types.", "anchors": ["src/derive/**: derive", "src/derive/core/ops.rs: push_where_predicate"]}
{"id": "C43", "title": "An implementation applies exactly when the fields agree, and its associated types are theirs", "statement": "A generated trait implementation applies to an enum if and only if the user's where clause holds, every field type implements the trait, and all fields have the same associated types, including the one inherited from a supertrait (such as `Item` for DoubleEndedIterator); for Error the fields must also be 'static, for closures the result type is the same for all. It asks for nothing else, and each associated type it declares is that of every field.", "quantifier": "every enum, every supported trait, every feature selection, every assignment of traits and associated types to the field types", "why_tests_cant": "A missing binding shows only for fields whose associated types differ, a superfluous one only for types that lack it; neither set is finite.", "anchors": ["src/derive/**: derive", "src/derive/core/ops.rs: push_where_predicate", "src/derive/std/error.rs: derive"]}
{"id": "C44", "title": "No spurious errors", "statement": "Every error that #[auto_enum] reports has its cause in the arguments or the annotated code: malformed arguments, a place where the attribute is not supported, a let without value, a function without body, an `if` without `else` as the value of annotated code, a helper attribute with arguments, #[rec], a marker macro without an expression, a marker name used twice, or - if none of these - fewer than two branches. Code without such a cause whose value is a match or an if chain with two branches that produce values is always accepted, also with further attributes inside, each on a value with two such branches. The complaint about too few branches is right: the expansion uses at most one variant.", "quantifier": "every list of arguments, every expression, statement or function; every depth", "why_tests_cant": "An error reported for valid code shows only on the code it is reported for; a test suite covers finitely many accepted programs.", "anchors": ["src/auto_enum/mod.rs: expand_expr, build_expr", "src/auto_enum/context.rs: Context::root, error, parse_args", "src/auto_enum/visitor.rs: visit_*", "src/auto_enum/expr.rs: child_expr"]}
{"id": "C45", "title": "A trait found in the type acts like a trait in the argument list", "statement": "With the type analysis on, supported traits in the `impl ..` types of a return type or of a let that are not among the arguments have the same effect as writing them after the other arguments: the same code or the same errors, except that such a let loses its type annotation. The one exception is an attribute without trait arguments on a function that returns `impl ..`, or on a closure in a let, that has no branches at its end and at most one `return`: the function is returned as it is, the let is refused for want of branches (or only loses its type), and no variant is made.", "quantifier": "every list of arguments, every type, every expression, statement or function; every depth", "why_tests_cant": "The two ways of naming a trait go through different code (collection, the early exit, the count of returns); that they agree on all programs cannot be seen from finitely many.", "anchors": ["src/auto_enum/type_analysis.rs: collect_impl_trait", "src/auto_enum/mod.rs: expand_expr, expand_parent_local, expand_parent_item_fn", "src/auto_enum/context.rs: is_dummy, build"]}
{"id": "C46", "title": "The value of an annotated expression or closure is the original value in one variant", "statement": "When `#[auto_enum(Trait)]` accepts a `match`, an `if` with `else` or a `loop` (perhaps at the end of blocks or in parentheses), as an expression or as the value of a `let`, then on every execution the expanded expression gives the value of the original expression inside one variant of the generated enum; if the original expression leaves in another way (`return`, `?`, `break` or `continue` of a loop around it, a panic), the expanded one leaves in exactly the same way with the same value. An annotated closure with such a body stays a closure with the same parameters; called with any arguments it returns the value of the original closure, by `return` or at its end, inside one variant.", "quantifier": "every such expression without further annotations inside, whose loops do not reuse a label and whose branches that look as if they gave no value give none; every execution, every initial state, every behaviour of the operations", "why_tests_cant": "A value that is wrapped twice, not at all, or wrapped although it leaves the expression for the function around it, depends on the path taken through arbitrarily nested code.", "anchors": ["src/auto_enum/expr.rs: visit_last_expr, visit_last_expr_match, visit_last_expr_if, visit_last_expr_loop", "src/auto_enum/visitor.rs: Visitor::visit_return", "src/auto_enum/mod.rs: expand_parent_local, expand_parent_expr"]}
{"id": "C47", "title": "Faulty requests are refused wherever they stand", "statement": "`#[auto_enum]` returns code only if the requests in it are well-formed: its own arguments are traits and at most one `marker = name`; it stands on an expression, a statement or a function, not on another item; every nested `#[auto_enum]` on an expression or `let`, at any depth, has arguments of the same form (on an expression it needs an argument list, on a `let` it may have none); and where traits are asked for, a `let` has a value and an annotated function has a body. Everything else is answered with compile errors, with or without traits in the outermost attribute.", "quantifier": "every input, every depth and place of the faulty attribute; of several `#[auto_enum]` in the same place the first", "why_tests_cant": "Ranges over all placements and all malformed argument lists.", "anchors": ["src/auto_enum/mod.rs: attribute, expand_parent_stmt, expand_parent_local, expand_parent_item_fn", "src/auto_enum/visitor.rs: VisitStmt", "src/auto_enum/context.rs: Args parsing"]}
{"id": "C48", "title": "Functions that use `?` return the original errors, each in one variant", "statement": "An `#[auto_enum(Trait)]` function with return type `Result<_, impl Trait>` and at least two `?` of its own, or an annotated closure with at least two `?`, called with any arguments in any state, ends as the original one does and leaves the same state: where the original returns `Ok(x)`, it returns the same `Ok(x)`; where the original returns `Err(x)` from a `?`, it returns `Err` of this `x` in one variant of the generated enum; it panics or runs forever exactly when the original does.", "quantifier": "every function body or closure body whose operands of `?` are `Result`s, whose `return`s are `return Ok(..)` and whose last expression is `Ok(..)` on each path that has a value, without annotations inside and without `?` in `async` blocks; all arguments, states, operations and any length of the execution", "why_tests_cant": "Ranges over all programs and all their executions; a test runs one of them.", "anchors": ["src/auto_enum/visitor.rs: visit_try, Visitor::visit_expr_mut", "src/auto_enum/mod.rs: expand_parent_item_fn, build_expr closure case"]}
{"id": "C49", "title": "Markers, #[nested] and #[never]: the original value in one variant", "statement": "An `#[auto_enum(Trait)]` function that returns `impl Trait`, or an annotated expression, `let` or closure, whose branches are annotated, ends on every execution as the original code does and in the same state, and its value is the original one inside exactly one variant of the generated enum: also where the value comes from a marker macro, from a branch of code below `#[nested]` (on an arm or an expression, nested to any depth), or by `return` from there, and with arms and branches under `#[never]` that indeed never end. Nothing is wrapped twice by the two passes over the code.", "quantifier": "every body whose last expression is a `match`, `if` with `else`, `loop` or a marker, perhaps at the end of blocks or in parentheses, each branch being plain code, code ending in a marker or `#[nested]` expression, or `#[never]`; arguments of markers contain no `return` that is taken; all arguments, states, operations and any length of the execution", "why_tests_cant": "The attribute goes over the code twice and decides from the annotations which pass wraps what; that no combination and nesting of them leads to a value that is wrapped twice or not at all on some path ranges over all programs and executions.", "anchors": ["src/auto_enum/expr.rs: is_unreachable, child_expr, visit_last_expr_match, visit_last_expr_if", "src/auto_enum/visitor.rs: Visitor::visit_nested, visit_marker_macro, find_nested", "README.md: `#[nested]`, `#[never]`, marker macro"]}
{"id": "C50", "title": "Nested attributes: what leaves is in a variant of the outer enum", "statement": "An `#[auto_enum(Trait)]` function that returns `impl Trait`, or an annotated expression, `let` or closure, that holds further `#[auto_enum]` attributes on `let`s, statements and expressions, ends on every execution as the original code does, with the same operations in the same order; and whatever value it gives - at the end of a branch, from a marker, from below `#[nested]`, by `return` or by a `break` of a `loop` at the end - is inside a variant of its own generated enum, also if that value comes out of a nested attribute and so is in a variant of another enum already. Seen by operations that do not look at the generated enums it is the original value.", "quantifier": "every body in which every `return` of its own is taken and there is no `?` of its own, and whose last expression is a `match`, `if` with `else`, marker or `loop` whose label is given to no inner loop or block and whose `break`s are not in a `for` iterator or a macro, below `#[never]` or on a marker, perhaps at the end of blocks, in parentheses or below `#[nested]`, each branch being code that gives a value, code that ends in `return`, `break`, `continue` or a panic, or code that ends in a marker or `#[nested]` expression; the statements before and the code of branches are any code with any attributes; all arguments, states, operations that do not look at wrappers, and any length of the execution", "why_tests_cant": "Nested attributes are expanded in the course of the visits for the outer one, each with an enum and a marker of its own; that this never leaves a value of the outer code unwrapped, or in the enum of the wrong attribute, ranges over all nestings and all executions.", "anchors": ["src/auto_enum/visitor.rs: VisitStmt, Visitor::visit_return, visit_marker_macro", "src/auto_enum/mod.rs: expand_parent_stmt, expand_parent_expr, expand_parent_local, expand_parent_item_fn", "src/auto_enum/expr.rs: child_expr"]}
{"id": "C51", "title": "Under an #[auto_enum] without arguments each attribute acts as if it were alone", "statement": "`#[auto_enum]` without arguments on a function, statement or expression - the way to use attributes on expressions on stable Rust - replaces each part below it that carries its own `#[auto_enum(...)]`, inner parts first, by exactly what that attribute returns when it is the only one on that code (apart from the hash in the name of the enum, which is that of the part), and changes nothing else. If it reports errors, they are exactly those that one of these attributes reports alone; if each attribute alone is accepted, all are accepted together. Excepted are attributes that choose a marker with `marker = ...`, because they also know the outer marker.", "quantifier": "all code under the attribute with any number and nesting of attributes (for the errors: no attribute inside code that has one), all arguments of these attributes, with and without type analysis when no trait is found in the return or variable type", "why_tests_cant": "A part is expanded in a child context made from that of the attribute around it, with that attribute's markers and not as a root; that none of this shows in the result is a relation between two expansions, for every code and every depth of nesting.", "anchors": ["src/auto_enum/visitor.rs: Dummy, VisitStmt", "src/auto_enum/context.rs: Context::root, make_child, join_child, is_marker_macro", "src/auto_enum/mod.rs: attribute, expand_parent_stmt, expand_parent_expr", "src/lib.rs: Positions where #[auto_enum] can be used"]}
{"id": "C52", "title": "An #[auto_enum] with traits that finds nothing to wrap makes no enum: it acts like one without arguments, or is refused", "statement": "If the code under `#[auto_enum(Trait, ...)]` has no branches of its own - its value is not a `match`, `if` or `loop` (also not at the end of blocks, in parentheses or as the receiver of method calls) unless that has its own `#[auto_enum(...)]`, no `return` or `?` is to be wrapped, and there are no `marker!`, `#[nested]`, `#[never]` or `#[rec]` - then with another attribute in the code the result is exactly that of `#[auto_enum]` without arguments, code or errors: a value that already is an enum of an inner attribute is not wrapped again, the inner attributes act as if alone, and if each is accepted alone, all is accepted. Without another attribute the outer one is refused with the single error that there are no branches; the error speaks of marker macros exactly if the code is an expression statement with `;`.", "quantifier": "all functions, expressions, statements and `let` statements without `else` that have this form, with other attributes anywhere and at any depth, all lists of traits, with and without type analysis when no trait is found in the return or variable type", "why_tests_cant": "The visitor with traits and the visitor without are different code with different order of tests for errors, scopes and exits; that they give the same result on all such code, including which errors are reported, is a relation between two runs for every shape of code.", "anchors": ["src/auto_enum/mod.rs: expand_expr, expand_parent_expr, expand_parent_local, expand_parent_item_fn", "src/auto_enum/visitor.rs: Visitor, Dummy, VisitStmt", "src/auto_enum/context.rs: Context::build, has_child", "src/auto_enum/expr.rs: child_expr"]}
{"id": "C53", "title": "Which traits an attribute lists has no effect but on the traits that its enum derives", "statement": "If the traits in `#[auto_enum(Trait, ...)]` are exchanged for others, at least one, then the macro gives the same errors, or code that is the same up to the list of traits that the attribute's own enum derives: the same branches and exits are wrapped in the same variants, and inner attributes keep their enums and traits. In particular, code is refused for one list of traits exactly if it is refused for all others, with the same errors. With type analysis the derived traits are those listed and those found in the return or variable type, and the type of a `let` may be dropped or kept; for an attribute without listed traits this holds unless the code has just one way out.", "quantifier": "all code that the macro accepts as input, all pairs of lists of traits with the same `marker`, with and without type analysis, nested attributes at any depth", "why_tests_cant": "It is a relation between two runs on the same code, for all code and all pairs of lists of traits; a dependence of the expansion on some trait or on the number of traits shows only for lists that a test tries.", "anchors": ["src/auto_enum/context.rs: Context::is_dummy, Context::build, Builder::build, collect_impl_trait", "src/auto_enum/mod.rs: attribute, expand_parent_expr, expand_parent_local, expand_parent_item_fn", "src/auto_enum/type_analysis.rs: collect_impl_trait"]}
{"id": "C54", "title": "The name of the marker macro has no effect", "statement": "If the marker is given another name, both in the attribute (`marker = name`) and in the marked expressions of the code, then the macro gives the same errors, or the same code up to that renaming with the same variants: the same branches and exits are wrapped, in the same order. `marker!` under an attribute that chose another marker is treated like any other macro, and the default name `marker` is a name like any other. This holds for names other than `panic`, `unreachable` and `compile_error`, and for code without inner `#[auto_enum]` attributes; for names other than `marker` it holds also with inner attributes, nested to any depth, that choose neither name for themselves (the default name is special below an inner attribute).", "quantifier": "all code that the macro accepts as input, all pairs of names, all traits, with and without type analysis; the default name for code without inner attributes", "why_tests_cant": "It is a relation between two runs on different code, for all code and all pairs of names; a place where the default name is compared instead of the chosen one shows only for code that has a marker at just that place.", "anchors": ["src/auto_enum/context.rs: Context::is_marker_expr, Context::is_marker_macro, Context::is_marker_macro_exact, DEFAULT_MARKER", "src/auto_enum/visitor.rs: Visitor::visit_marker_macro, visit_return, visit_try, FnVisitor", "src/auto_enum/expr.rs: is_unreachable, visit_last_expr_loop"]}
{"id": "C55", "title": "The name of the generated enum has no effect but on that name", "statement": "The name of the enum is made from a hash of the annotated code. If the hash were another one, the macro would give the same errors, or the same code with the same variants up to the name of the enum, in its declaration and in the constructors; nothing else in the expansion depends on the hash. In particular code is refused for one hash exactly if it is refused for all, with the same errors. The same holds for the enums of inner `#[auto_enum]` attributes, nested to any depth, even if the other hash gives several of them one name. The code should not itself mention a generated name.", "quantifier": "all code that the macro accepts as input, with inner attributes or without, all arguments, all pairs of hash functions, with and without type analysis", "why_tests_cant": "It is a relation between two runs with different hashes, for all code; a test runs the macro with the one hash that the code has.", "anchors": ["src/auto_enum/context.rs: Context::root, Builder::new, Builder::build, next_expr_with_attrs, hash", "src/auto_enum/mod.rs: attribute, build_expr"]}
