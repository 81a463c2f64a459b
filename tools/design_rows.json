[
[
"C46",
"PComms",
"GenComms: genNamespaceBeginFor/EndFor, genScopeFor",
"induction on the element path; the opened names are computed next to the scope parts",
"elements other than global ones only have the balance"
],
[
"C47",
"PComms",
"GenComms: genCppIntTypeFor; CommsInt: int_base_class",
"via C08: reported range = wire values, wire bits <= bits of the C++ type",
"with serOffset, and for default and special values of short variable length fields, it is refuted"
],
[
"C49",
"PComms",
"CommsInt: int_def_opts and the functions it calls; GenUtil: genNumToString",
"every option of the list is traced back to its source by its name; number texts read as C++ constants",
"floats; numbers at the ends of the 64 bit domain are UB (refuted)"
],
[
"C50",
"PComms",
"CommsInt: add_ranges_opt, unify, valid_checks",
"fold invariants over the ranges, merging invariant under the parser's sorting (int_inv), atoms of the check text read back",
"64 bit signed ranges with negative bounds, deprecated old ranges and bounds outside the C++ type are refuted; merged ranges some of which are not in any supported version"
],
[
"C51",
"PComms",
"CommsInt: add_length_opt",
"case analysis and source of the option",
"bitLength 0"
],
[
"C52",
"PComms",
"CommsInt: add_default_opt",
"case analysis and source of the option",
""
],
[
"C53",
"PComms",
"CommsInt: special_funcs, special_map",
"sorting lemma with the total order of the code; names injective hypothesis explicit",
"map entries of special values outside the supported versions and clashing names are refuted"
],
[
"C54",
"PCondCode",
"CommsCond: cond_text, refresh_body and the access functions of the field kinds",
"typed environment of field values; generated text related to a small C++ expression grammar (print) up to layout, evaluated with the access functions; induction on the condition",
"interface (%) references, comparison of a reference text with a set; existence of fields that are not optional in the generated code, wrapped numbers, unescaped quotes are refuted"
],
[
"C55",
"PFloat",
"FloatField: float_parse and its parts; std::stod is a parameter of the environment",
"order embedding of the doubles into the integers; fold invariants over ranges and specials",
"uniqueness of special values against a reused field and range bounds against the type are refuted; the function of std::stod itself is a parameter"
],
[
"C56",
"PFlags",
"CommsInt: comms_def_options, int_def_opts, int_base_class, valid_body, int_refresh_body, name_func; GenUtil: genDisplayName, genStrToMacroName",
"membership in the option list; templates by C36, layout by unindent; words of macro names by induction",
"refresh(): first range that is empty, too wide for the type or of no supported version; quotation marks in display names are refuted"
],
[
"C57",
"PCmd",
"the option table, the parser of arguments, the queries on it, list files (their contents as a function from names), splitting, version numbers, namespace overrides",
"a relation that reads argument lists is shown to have exactly one result, which the loop computes; induction on the arguments with the waiting option as state; the option table is evaluated",
"false for empty arguments, missing values and forced versions that are no number (refuted); help text, quiet/debug/warning settings, other tools' options, opening files"
],
[
"C58",
"PFactory",
"the collection and order of messages, the selections, the maps by id and the printing of the bodies of createMsg, msgCount, hasUniqueIds and the two dispatch functions, the std::tuple of messages and the enumeration of ids",
"programs of a small statement language with a separate semantics: the generated text has the same tokens as the printed program, whose runs are computed from the map of messages; the map is related to the ordered list by induction",
"false for the id 2^63, for an index of an id with one message next to shared ids, for names that coincide after joining (refuted); message bundles of the command line; ids listed from an enum field; the class around the functions"
],
[
"C59",
"PEnumGen",
"the ordered values, the text of every number, the wrapped and indented comments, the extra names and the whole definition",
"the text, without indentation, is a list of rows which a small separate grammar reads as enumerators; the comment rows are followed through wrapping, replacement and indentation; a pigeonhole argument for the extra names",
"false for the greatest value 2^63-1 of unsigned 64-bit types, for types of variable length and for keywords (refuted); descriptions and display names with backslashes are excluded; enums whose values come from the generated MsgId are not modelled"
],
[
"C60",
"PEnumValid.v",
"merging of values into ranges, options, the two bodies of valid(), length and default options",
"the generated text has the tokens of a small program of tests (EnumCode.v); induction over the merged ranges, their order, the groups of equal versions",
"signed 64-bit numbers and uintvar numbers from 2^63 on are excluded (refuted for int64); the array may name enumerators which a forced version leaves out (refuted)"
],
[
"C61",
"PEnumNames.v",
"choice of the layout, both arrays, the text of a number, both bodies of valueName()",
"the generated text is the array of the spec (EnumCode.v) up to indentation; induction over the sorted values for both arrays",
"display names with quotes, backslashes or newlines; uintvar shorter than 8 bytes with numbers from 2^63 on; the searched array needs all enumerators (refuted for forced versions); a reuse which forbids repeated numbers afterwards (refuted)"
],
[
"C62",
"PSetGen.v",
"all options of the class, the masks as 64 bit numbers",
"folds over the bits with an invariant for each index (Z.testbit); option texts read back with the spec of C++ constants",
"which of several bits of one index gives the default (refuted: one which does not exist any more may); reserved values of the same index must agree; uintvar sets get 10 bytes (refuted); versions: C63"
],
[
"C63",
"PSetValid.v",
"grouping by versions, repeated indices, gaps and their unification, all five templates, together with the reserved bits option",
"the text is that of a small program (SetCode.v) up to layout; invariant of the loop over the bits for each index; induction over the sorted versions for the gaps",
"nested versions of one index, a later name of a bit of all versions, reserved bits of some versions only, bits gone before the first supported version with another reserved value (the first, second and last are refuted); indices from 64 on (refuted: undefined shift)"
],
[
"C64",
"PSetBits.v",
"the mask of used bits, the test for a sequence with its wrap around, both templates with documentation; the array of names with gaps",
"a number m with m & (m + 1) = 0 is 2^n - 1, so the strictly sorted indices are 0 .. n - 1; the text up to layout is a list of comment rows and calls of the COMMS_BITMASK_BITS macros",
"indices from 64 on, which type uintvar allows (refuted); display names with quotes (refuted); the macro call of a field without bits"
],
[
"C65",
"PSelect.v",
"marking by options, list file split into lines, platform filter, lookup of each line, which of the visited messages and interfaces are written",
"marks are places (schema, path, name); the lookup of C66 relates a line to a place, places identify messages, so what is written is what is marked",
"messages and interfaces of namespaces inside others are not marked by default (refuted); contents of the files written; fields marked through messages"
],
[
"C66",
"PLookup.v",
"std::lower_bound as a binary search, the lookup in namespaces, schemas and the generator, the schema prefix",
"the lists are strictly sorted by name (an invariant of accepted protocols), so the binary search finds exactly the element of that name; induction on the path",
"lookup of an interface by the empty text; the asserts before the lookups (a text without the expected form)"
],
[
"C67",
"POrder.v",
"the loop over the vector of layers with restarts, what each kind of layer does to the vector, iterators as positions",
"invariant of the prefix of the vector which is already arranged, a measure (the suffixes still in front) for the moves of one suffix layer, induction on the suffix layers; a trace which repeats for the endless loop",
"custom checksum layers with only checksumFrom and checksums in front of the payload with only from (refuted); layers of equal names"
],
[
"C68",
"PAlias.v",
"`alias_parse`, `alias_verify`, `verify_aliased`, `update_aliases`, `copy_aliases`, `add_aliases`, `reuse_extras`",
"`reaches`, an independent inductive reading of dotted paths, is preserved by copies of fields; invariants over the inductive definitions of accepted fields, messages and interfaces (names distinct, targets there, no fields means no aliases)",
"an alias of an inner field in a message with reuse may lead nowhere; aliases of inner fields are lost when a bundle is reused; a reused or copied alias may have the name of a field (all three refuted)"
],
[
"C69",
"PSeq.v",
"`string_init`, `data_init`, `byte_str`, `bytes_str`, `string_valid_body`, `data_defs`, `data_valid_body`",
"an independent reading of string literals (`literal_chars`), of byte arrays and of std::lower_bound (`looked_up`, which requires the partition); the parser's lists are sorted (invariant over accepted fields), filtering keeps that, the template yields the code of the table",
"texts with quotes or backslashes are written unescaped, a list of which no value exists any more and an empty data value give an empty array: refuted"
],
[
"C70",
"PSeq.v",
"`fixed_size_opt`, `attached_type`, `attached_opt`, `zero_term_opt`, `forcing_opt`, `string_opts`, `data_opts`, `list_opts`, `string_base`, `data_base`, `list_base`",
"the options split into those of all kinds of fields, none of which is a Sequence option, and one part per attribute; numbers by `numU_spec` and the bounds of accepted fields; base class up to layout",
"a list whose termination suffix is another member stops the generator with an error, which is not modelled"
],
[
"C71",
"PPrefix.v",
"`field_access`, `prefix_sibling`, `prepare_one`, `prepare_body`, `refresh_body`",
"an independent syntax of the generated statements with an operational semantics (`exec`, with wrap around, conversions, loops, break and assertions); the templates yield the tokens of a program of that syntax; the program is run symbolically, the loop by induction on the elements, and determinism of `exec` gives the statement about all runs",
"element lengths run into an assertion, prefixes narrower than their C++ type get numbers they cannot carry: refuted. The refresh theorems for lists take one such property at a time; a list with a detached termination field (the generator fails) and numbers which are not plain ints are not covered"
],
[
"C72",
"PRead.v",
"`member_codes`, `reads_from`, `bundle_read`, `message_read_code`, `bundle_refresh`, `message_refresh`, `prepare_defs`, `refresh_defs`, `custom_opts`",
"an independent syntax of the statements with an operational semantics parametrised by what members do; the templates yield the tokens of such a program, and running it equals reading member after member, by induction on the members with the index of the last prepared one",
"the functions of the COMMS base classes are given their documented meaning (reading a range of members); names of members are assumed distinct in the code (C37 shows they may clash); the value of the condition of a message for being read is a parameter; code injected by the user is not modelled"
],
[
"C73",
"PRead.v",
"`message_valid`, `bundle_valid`, `cond_text`",
"the semantics of conditions and expressions of C54; the templates are filled with a text whose tokens are those of the expression",
"conditions outside `supported_cond` (see C54), conditions over interface fields and injected code"
],
[
"C74",
"PVariant.v",
"the read function of variants as a token sequence and its execution, given what reading the key and the rest of a member does",
"Template filling lemmas give the tokens of the cases; an invariant of the loop over the members (keys seen, the first key) gives which functions are generated; the cases are related to the members one by one, so execution selects what the specification asks for.",
"Read code injected by the user; keys of different lengths may share a number (C74_distinct_partial); commsIsVersionDependent and the customisation scope of a member are parameters."
],
[
"C75",
"PStack.v",
"the definitions of layers and of the stack as a token sequence, and the stack which following the names gives",
"Template filling lemmas per kind of layer give the tokens of each definition; an invariant of the loop over the layers (the last name, whether it is a template, the stack it stands for) gives the whole; C67 gives that the payload is innermost.",
"Frames C67 does not cover; the texts of fields, documentation and options are parameters; layers with equal class names (refuted)."
],
[
"C76",
"PConstruct.v",
"the text of the default constructor as a token sequence, and executing its statements on the fields of the interface",
"Template filling gives the tokens of one statement, the lookup and access lemmas of C54 the field, its accessor and the literal; executing a statement is shown to establish its part and keep the others, and induction over the parts gives the whole.",
"Parts on members of bundles and other nested fields, on texts, on two fields, on lengths and on existence (accepted, see the refuted theorems); injected code."
],
[
"C77",
"PReadCond.v",
"the check in front of the read function as a token sequence, with the expression over fields of the interface and its value",
"As C54, with an own small syntax of expressions over fields of the base class: structural induction on the condition, the template of lists of conditions of C54, determinism of values; the constructor by C76, the rest of the read function by C72, the condition copied by the parser from the steps of parsing a message.",
"Parts on members of bundles, on texts, lengths and existence, and comparison of two fields (refuted: the type named in the cast does not exist)."
]
]