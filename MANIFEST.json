{"claims": [
  {"property": "C01", "status": "proved", "theorems": ["C01_erase", "C01_only_edits"], "note": ""},
  {"property": "C02", "status": "proved", "theorems": ["C02_same_behaviour", "C02_same_trace", "C02_same_termination"], "note": "Expanded code that uses a generated enum where the compiler does not accept it (e.g. as a condition) is stuck and excepted. Try blocks are stuck in the semantics; the From conversion of ? is not modelled."},
  {"property": "C03", "status": "partial", "theorems": ["C03_values_partial", "C49_function", "C50_function", "C50_trace", "C03_returns_partial", "C03_labelled_block_refuted"], "note": "Proved: on every execution the value that leaves is the original one in one variant of the enum, for bodies without further annotations (C03_values_partial), with markers, #[nested] and #[never] (C49_function), and, up to what the nested attributes wrap, with nested attributes, loops at the end included (C50_function); every return of the function itself is wrapped once, in all bodies. The full statement is false for branches that only look as if they gave no value (C17) and breaks assigned to the wrong loop (C06), shown by C03_labelled_block_refuted. Not in the classes: return m!(x) and break m!(x) with a marker m, and breaks in arguments of macros. For attributes that list at least one trait; by C45 traits found by type analysis act as if listed."},
  {"property": "C04", "status": "proved", "theorems": ["C04_arms", "C04_exact", "C04_nested", "C04_skipped"], "note": "Which arms are skipped is the small relation arm_skipped of Tails.v (C16-C20). For attributes that list at least one trait; by C45 traits found by type analysis act as if listed."},
  {"property": "C05", "status": "proved", "theorems": ["C05_chain", "C05_exact", "C05_nested", "C05_branches", "C05_missing_else"], "note": "The ifs of the chain carry no annotations of their own but for those in front of the whole expression. For attributes that list at least one trait; by C45 traits found by type analysis act as if listed."},
  {"property": "C06", "status": "partial", "theorems": ["C06_loop", "C06_breaks_partial", "C06_shadowed_label_refuted", "C06_for_iterator_refuted"], "note": "Holds unless an inner loop or block has the same label or a break stands in the iterator of a for; false for these, shown by the two refutations. For attributes that list at least one trait; by C45 traits found by type analysis act as if listed."},
  {"property": "C07", "status": "proved", "theorems": ["C07_function", "C07_closure", "C07_meaning", "C07_name", "C07_last", "C07_last_exact"], "note": "For attributes that list at least one trait; by C45 traits found by type analysis act as if listed."},
  {"property": "C08", "status": "partial", "theorems": ["C08_closures_partial", "C08_items_partial", "C07_function", "C08_async_refuted"], "note": "Proved for closures and items at any depth; try blocks keep their ? (C07_function). False for async blocks, shown by C08_async_refuted."},
  {"property": "C09", "status": "proved", "theorems": ["C09_uses_match_declarations", "C09_each_variant_once"], "note": "The statement per enum assumes that generated enum names do not collide (identical sibling code has the same hash); the counting statement holds without that."},
  {"property": "C10", "status": "proved", "theorems": ["C10_in_scope"], "note": ""},
  {"property": "C11", "status": "proved", "theorems": ["C11_enum_shape", "C11_own_enum_first"], "note": ""},
  {"property": "C12", "status": "proved", "theorems": ["C12_too_few_is_error", "C12_error_is_exact", "C12_macro_statement_refuted", "C12_between_refuted"], "note": "A macro call statement under the attribute is the one exception; shown by C12_macro_statement_refuted."},
  {"property": "C13", "status": "proved", "theorems": ["C13_all_or_nothing", "C13_errors_kept", "C13_nested_errors_reported", "C13_errors_stop"], "note": ""},
  {"property": "C14", "status": "proved", "theorems": ["C14_terminates", "C14_no_panic", "C14_unique"], "note": "For syntax trees in which every else is followed by a block or an if, as the grammar demands."},
  {"property": "C15", "status": "proved", "theorems": ["C15_only_nested_changes", "C15_identity"], "note": ""},
  {"property": "C16", "status": "proved", "theorems": ["C16_no_value", "C16_no_value_stmt"], "note": ""},
  {"property": "C17", "status": "partial", "theorems": ["C17_skipped_no_value_partial", "C17_label_refuted", "C17_item_refuted"], "note": "False for a labelled block left by its break and for a block that ends in an item, shown by the two refutations; holds otherwise."},
  {"property": "C18", "status": "partial", "theorems": ["C18_exits_partial", "C18_questions_partial", "C18_arm", "C18_arm_visit", "C18_branch", "C18_break", "C18_C23_accepted", "C18_C23_rejected", "C18_arm_rejected", "C18_second_refuted"], "note": "Proved for arms, branches, return, ? and break; #[never(..)] and #[never = ..] are rejected at any depth if they are the first annotation of that name in their place. A second one in the same place is accepted, shown by C18_second_refuted. For attributes that list at least one trait; by C45 traits found by type analysis act as if listed."},
  {"property": "C19", "status": "partial", "theorems": ["C19_C20_arm", "C19_C20_branch", "C19_inner", "C19_inner_arm", "C19_inner_let", "C19_twice_refuted"], "note": "Wrapped twice if #[nested] stands on an expression whose branches are wrapped anyway, shown by C19_twice_refuted. For attributes that list at least one trait; by C45 traits found by type analysis act as if listed."},
  {"property": "C20", "status": "partial", "theorems": ["C06_breaks_partial", "C20_replaced", "C20_others", "C20_none_left", "C01_only_edits", "C18_exits_partial", "C18_questions_partial", "C19_C20_arm", "C19_C20_branch", "C24_only_markers", "C20_outer_marker_refuted"], "note": "Proved: each marker in a place that its attribute owns becomes one variant applied to the argument and none is left, other macros stay, and return, ?, arms and branches directly on a marker of the same attribute are not wrapped a second time. Refuted: an arm of a nested attribute that holds a marker of the outer one is wrapped a second time, because the outer attribute has replaced the marker by then. For attributes that list at least one trait; by C45 traits found by type analysis act as if listed."},
  {"property": "C21", "status": "partial", "theorems": ["C21_duplicate_rejected", "C21_duplicate_rejected_let", "C21_grandchild_refuted"], "note": "Holds where the visitors know the name; false for an attribute inside a nested one, shown by C21_grandchild_refuted."},
  {"property": "C22", "status": "proved", "theorems": ["C22_expression", "C22_statement", "C22_no_traits", "C22_no_traits_statement", "C22_siblings", "C22_nested_start"], "note": ""},
  {"property": "C23", "status": "partial", "theorems": ["C23_gone_partial", "C18_C23_accepted", "C18_C23_rejected", "C01_only_edits", "C23_twice_refuted", "C23_let_refuted", "C23_arm_refuted", "C23_marker_refuted"], "note": "Proved: all three annotations are gone from the output if each stands where it has a meaning and none twice in one place (tidy_code); #[rec] is rejected; everything else stays (C01_only_edits). The four refutations show annotations that survive otherwise. For attributes that list at least one trait; by C45 traits found by type analysis act as if listed."},
  {"property": "C24", "status": "proved", "theorems": ["C24_only_markers", "C24_nested"], "note": "For attributes that list at least one trait; by C45 traits found by type analysis act as if listed."},
  {"property": "C25", "status": "proved", "theorems": ["C25_grammar", "C25_second_marker", "C25_rejected"], "note": ""},
  {"property": "C26", "status": "proved", "theorems": ["C26_try_exit", "C26_macros", "C26_result", "C26_names"], "note": ""},
  {"property": "C27", "status": "proved", "theorems": ["C27_enum_traits", "C27_wanted", "C27_exact"], "note": ""},
  {"property": "C28", "status": "proved", "theorems": ["C28_history", "C28_consuming"], "note": "The held value, its implementations, arguments and results are arbitrary. Error::source is not forwarded (C35)."},
  {"property": "C29", "status": "proved", "theorems": ["C29_fused", "C29_exact", "C29_len", "C29_both_ends"], "note": ""},
  {"property": "C30", "status": "proved", "theorems": ["C30_requested", "C30_nothing_else"], "note": ""},
  {"property": "C31", "status": "partial", "theorems": ["C31_supertraits_partial", "C31_supertrait_refuted"], "note": "Holds for needed traits that enum_derive itself supports; false for needed traits that only #[derive] supports: #[enum_derive(Copy)] adds no Clone, shown by C31_supertrait_refuted."},
  {"property": "C32", "status": "partial", "theorems": ["C32_once_partial", "C32_twice_refuted"], "note": "False if two listed traits need the same unlisted trait, shown by C32_twice_refuted; holds otherwise."},
  {"property": "C33", "status": "proved", "theorems": ["C33_guards"], "note": ""},
  {"property": "C34", "status": "proved", "theorems": ["C34_unpin", "C34_pinned"], "note": ""},
  {"property": "C35", "status": "proved", "theorems": ["C35_source", "C35_chain", "C35_fmt"], "note": ""},
  {"property": "C36", "status": "proved", "theorems": ["C36_transpose", "C36_undo", "C36_none_forgets_variant"], "note": ""},
  {"property": "C37", "status": "proved", "theorems": ["C37_transpose_accepted", "C37_generated_accepted"], "note": "The printed parameter and type lists are compared as token lists."},
  {"property": "C38", "status": "proved", "theorems": ["C38_let_type", "C38_let_type_nested"], "note": ""},
  {"property": "C39", "status": "proved", "theorems": ["C39_outcomes"], "note": ""},
  {"property": "C40", "status": "proved", "theorems": ["C40_end_to_end"], "note": ""},
  {"property": "C41", "status": "proved", "theorems": ["C41_complete"], "note": "What each trait demands was written from the documentation of the traits."},
  {"property": "C42", "status": "proved", "theorems": ["C42_bounds"], "note": ""},
  {"property": "C43", "status": "proved", "theorems": ["C43_applies", "C43_types"], "note": "The associated types inherited from supertraits are listed in AgreeSpec.v from the documentation of the traits."},
  {"property": "C44", "status": "proved", "theorems": ["C44_errors_have_causes", "C44_one_error", "C44_too_few", "C44_accepted", "C44_plain", "C44_match_accepted", "C44_if_accepted", "C44_nested_accepted", "C44_sound"], "note": "The causes are listed in Causes.v. C44_match_accepted and C44_if_accepted are for code without other attributes inside; C44_nested_accepted is for code with attributes inside, each on a match or if with two branches that surely have values (Steady.v). Traits found in a type: C45."},
  {"property": "C45", "status": "proved", "theorems": ["C45_can_be_listed", "C45_as_listed", "C45_changes", "C45_one_way_same", "C45_one_way_fn", "C45_one_way_let", "C45_always_as_listed_refuted"], "note": "The traits found are those of C27. C45_always_as_listed_refuted shows that the exception is needed: in code with one way out markers stay if the trait is found, but are expanded if it is listed."},
  {"property": "C46", "status": "proved", "theorems": ["C46_expression", "C46_let", "C46_closure"], "note": "The conditions are in the quantifier; that they are needed is shown by C03_labelled_block_refuted and the refutations of C06. For attributes that list at least one trait; by C45 traits found by type analysis act as if listed."},
  {"property": "C47", "status": "proved", "theorems": ["C47_accepted", "C47_refused", "C47_place", "C25_rejected"], "note": "The converse of C44 for nested attributes. The annotations nested, never and rec are in C18 and C23, a missing else is in C05. C12_between_refuted shows that an attribute is not always accepted as nested one when it is accepted alone."},
  {"property": "C48", "status": "proved", "theorems": ["C48_function", "C48_closure"], "note": "The evaluator knows no types, so the original code is run with its operands of ? checked to be Results (strict); the theorems also say that the check changes nothing unless it fails. The shape of what takes the place of a ? is in C07, its local meaning in C07_meaning. For attributes that list at least one trait; by C45 traits found by type analysis act as if listed."},
  {"property": "C49", "status": "proved", "theorems": ["C49_function", "C49_expression", "C49_let", "C49_closure"], "note": "Code without annotations is a special case (covered_body_spread in AnnotatedTop.v). Not in the class: #[nested] and markers inside loops whose value is wrapped, return m!(x), nested auto_enum attributes (C50). For attributes that list at least one trait; by C45 traits found by type analysis act as if listed."},
  {"property": "C50", "status": "proved", "theorems": ["C50_function", "C50_trace", "C50_expression", "C50_let", "C50_closure"], "note": "The operations must not look at the generated enums (respects in Same.v; met by all traced oracles, traced_respects). An expanded run that is stuck, because an operation of the language such as a condition is given a generated enum, which the compiler rejects, is excepted as in C02. For attributes that list at least one trait; by C45 traits found by type analysis act as if listed."},
  {"property": "C51", "status": "proved", "theorems": ["C51_parts", "C51_errors", "C51_accepted", "C51_name"], "note": "Attributes with marker = ... are excepted in the statement; C51_condition shows that they have to be. C51_errors and C51_accepted are about code without an attribute inside a part that has one."},
  {"property": "C52", "status": "proved", "theorems": ["C52_same", "C52_refused", "C52_parts", "C52_accepted"], "note": "Closures under the attribute itself (whose body is what it works on) and let statements with else are not covered. C52_condition shows a return that is wrapped."},
  {"property": "C53", "status": "proved", "theorems": ["C53_traits_only", "C53_found", "C53_refused"], "note": "C53_condition shows that at least one trait is needed (an attribute without arguments leaves the code alone), C53_let that the type of a let can differ."},
  {"property": "C54", "status": "proved", "theorems": ["C54_marker_name", "C54_refused", "C54_nested_attributes"], "note": "The two runs are compared with the same name for the enum. C54_reserved shows that names such as panic have to be excluded, C54_nested that the default name differs from others below an inner attribute, C54_kept_condition that inner attributes must not choose the new name."},
  {"property": "C55", "status": "proved", "theorems": ["C55_enum_name", "C55_refused", "C55_nested_attributes"], "note": "C55_condition shows that the code must not mention the name."}
]}
