{"id": "C01", "title": "Signed integer property values denote the written number", "statement": "Whenever the value of an integer-valued property is read as a signed 64 bit number, it is accepted iff the longest numeric prefix of the text (after blanks; optional sign; decimal, 0x hex or 0 octal) is non-empty and its mathematical value fits the type, and then exactly that value is used.", "quantifier": "every text", "why_tests_cant": "the set of texts is infinite; boundary texts around 2^63 and 2^64, prefixes, signs and radix forms cannot be enumerated", "anchors": ["lib/src/parse/parse_common.cpp:parseStrToIntMax", "lib/src/parse/parse_common.cpp:parseStrToUintMax"]}
{"id": "C02", "title": "Unsigned properties (versions, counts, bit indices) are never silently truncated", "statement": "A value accepted for an unsigned property (sinceVersion, deprecated, version, count, idx, bitLength, validateMinLength) is the number that was written.", "quantifier": "every text", "why_tests_cant": "only texts at or above 2^32 misbehave", "anchors": ["lib/src/parse/parse_common.cpp:parseStrToUnsigned", "lib/src/parse/ParseXmlWrap.cpp:parseGetAndCheckVersions", "lib/src/parse/ParseSetFieldImpl.cpp:parseUpdateBits"]}
{"id": "C03", "title": "Accepted names are identifiers", "statement": "A field/message/value name is accepted iff it is a non-empty C identifier ([A-Za-z_][A-Za-z0-9_]*); an element reference is accepted iff, after an optional '@', it is a dot separated list of non-empty words of identifier characters the first of which starts with a letter or underscore.", "quantifier": "every text", "why_tests_cant": "infinite set of texts", "anchors": ["lib/src/parse/parse_common.cpp:parseIsValidName", "lib/src/parse/parse_common.cpp:parseIsValidRefName"]}
{"id": "C04", "title": "Whitespace clean-up of property values is lossless and idempotent", "statement": "Trimming removes exactly the leading and trailing blanks; normalising turns every maximal run of blanks into one space, and neither drops, reorders nor changes any other character; both are idempotent.", "quantifier": "every text", "why_tests_cant": "infinite set of texts", "anchors": ["lib/src/parse/parse_common.cpp:parseRemoveHeadingTrailingWhitespaces", "lib/src/parse/parse_common.cpp:parseNormaliseString", "lib/src/parse/ParseXmlWrap.cpp:parseNodeProps"]}
{"id": "C05", "title": "validRange text is split at its only comma", "statement": "Text is accepted as a range iff it has the shape '[' lo ',' hi ']' with exactly one comma and the closing bracket at the end (and only there after the comma); the two bounds handed on are lo (blanks before the comma removed) and hi (blanks after the comma removed).", "quantifier": "every text", "why_tests_cant": "infinite set of texts", "anchors": ["lib/src/parse/parse_common.cpp:parseRange"]}
{"id": "C06", "title": "A property given twice is never silently resolved", "statement": "If a single-instance property of an element is supplied more than once in any combination of XML attribute and child element, parsing the element fails; if it is supplied once, that value is the one used, whichever form is used; values are compared and used with blanks trimmed.", "quantifier": "every XML element and property", "why_tests_cant": "all mixtures of attribute and child forms", "anchors": ["lib/src/parse/ParseXmlWrap.cpp:parseNodeProps", "lib/src/parse/ParseXmlWrap.cpp:parseChildrenAsProps", "lib/src/parse/ParseXmlWrap.cpp:parseValidateSinglePropInstance"]}
{"id": "C07", "title": "Version information is consistent with parent and schema", "statement": "For every accepted element carrying sinceVersion/deprecated: parent.since <= since < deprecated <= parent.deprecated, since <= schema version, and deprecated is either 'never' or <= schema version; an element that does not specify them inherits its parent's.", "quantifier": "every element, nesting depth and version numbers", "why_tests_cant": "unbounded nesting and all 32 bit version combinations", "anchors": ["lib/src/parse/ParseXmlWrap.cpp:parseCheckVersions", "lib/src/parse/ParseXmlWrap.cpp:parseGetAndCheckVersions", "lib/src/parse/ParseFieldImpl.cpp:parseUpdateVersions", "lib/src/parse/ParseMessageImpl.cpp:parseUpdateVersions"]}
{"id": "C08", "title": "Reported integer limits are exactly the serialisable values", "statement": "For an int/enum field of a given type and bit length n the reported minimal and maximal values are 0 and 2^n-1 (unsigned), -2^(n-1) and 2^(n-1)-1 (signed), or the same with n = min(64, 7*bytes) for variable length types.", "quantifier": "every int type and every bit length from 1", "why_tests_cant": "all widths and types, wrap-around at 64 bits", "anchors": ["lib/src/parse/ParseIntFieldImpl.cpp:parseCalcMinValue", "lib/src/parse/ParseIntFieldImpl.cpp:parseCalcMaxValue"]}
{"id": "C09", "title": "serOffset moves the serialisable range by the offset", "statement": "With serialisation offset o the reported minimal/maximal values are exactly the values v such that v+o is representable in the serialised form, cut to the 64 bit representation.", "quantifier": "every type, width and offset", "why_tests_cant": "2^64 offsets; wrap-around corner cases", "anchors": ["lib/src/parse/ParseIntFieldImpl.cpp:parseUpdateMinMaxValues"]}
{"id": "C10", "title": "Accepted default value fits the type", "statement": "After an int or enum field is accepted its default value lies within the range of its declared type, also when fields are reused.", "quantifier": "every field definition and reuse chain", "why_tests_cant": "all literals, references and reuse chains", "anchors": ["lib/src/parse/ParseIntFieldImpl.cpp:parseUpdateDefaultValueInternal", "lib/src/parse/ParseEnumFieldImpl.cpp:parseUpdateDefaultValue"]}
{"id": "C11", "title": "Special values have unique valid names and fit the type", "statement": "Accepted <special>s have pairwise distinct identifier names, values inside the type range and consistent versions; unless nonUniqueSpecialsAllowed, two specials of the field never have the same value.", "quantifier": "every list of specials and reuse chain", "why_tests_cant": "all lists and reuse histories", "anchors": ["lib/src/parse/ParseIntFieldImpl.cpp:parseUpdateSpecials"]}
{"id": "C12", "title": "Merging valid ranges does not change which values are valid", "statement": "The list of valid ranges reported for an int field admits at every protocol version exactly the values admitted by the ranges written in the schema.", "quantifier": "every list of ranges, every value, every version", "why_tests_cant": "all range lists, values at the signed/unsigned boundary", "anchors": ["lib/src/parse/ParseIntFieldImpl.cpp:parseUpdateValidRanges"]}
{"id": "C13", "title": "Reported valid ranges are sorted and disjoint", "statement": "Reported ranges are sorted by (min, max); two ranges valid in the same version interval are neither overlapping nor adjacent.", "quantifier": "every list of ranges", "why_tests_cant": "all range lists", "anchors": ["lib/src/parse/ParseIntFieldImpl.cpp:parseUpdateValidRanges"]}
{"id": "C14", "title": "Serialisation length of an int/enum is between 1 and the size of its type", "statement": "Accepted int/enum fields have 1 <= length <= size of the type, minimal length <= maximal length and, as bitfield members, bitLength <= 8*length; reuse can change neither type nor length.", "quantifier": "every field definition and reuse chain", "why_tests_cant": "all property combinations and reuse chains", "anchors": ["lib/src/parse/ParseIntFieldImpl.cpp:parseUpdateLength", "lib/src/parse/ParseIntFieldImpl.cpp:parseUpdateBitLength", "lib/src/parse/ParseIntFieldImpl.cpp:parseUpdateType"]}
{"id": "C15", "title": "Enum values are named uniquely, are unique and fit the type", "statement": "An accepted enum has at least one value; value names are distinct identifiers; every value lies within the type range; unless nonUniqueAllowed no two names share a number; the number->name index contains exactly the reported values.", "quantifier": "every list of values and reuse chain", "why_tests_cant": "all lists, reuse histories", "anchors": ["lib/src/parse/ParseEnumFieldImpl.cpp:parseUpdateValues", "lib/src/parse/ParseEnumFieldImpl.cpp:parseIsUnique"]}
{"id": "C16", "title": "Set bits are in range, uniquely named and consistent", "statement": "Every bit of an accepted set has an index below the bit length and a unique name; unless nonUniqueAllowed no two bits share an index; bits sharing an index in overlapping versions agree on default, reserved flag and reserved value.", "quantifier": "every list of bits and reuse chain", "why_tests_cant": "all lists, reuse histories", "anchors": ["lib/src/parse/ParseSetFieldImpl.cpp:parseUpdateBits"]}
{"id": "C17", "title": "Set length, bit length and type agree", "statement": "An accepted set has 1 <= length <= 8 (or the size of its type), 1 <= bitLength <= 8*length, and an unsigned underlying type wide enough for length.", "quantifier": "every set definition", "why_tests_cant": "all combinations of type/length/bitLength", "anchors": ["lib/src/parse/ParseSetFieldImpl.cpp:parseUpdateLength"]}
{"id": "C18", "title": "Bitfields occupy whole bytes and at most 64 bits", "statement": "The bit lengths of the members of an accepted bitfield add up to a multiple of 8 not above 64, the reported length is that sum divided by 8, and member names are distinct.", "quantifier": "every member list, reuse and replacement history", "why_tests_cant": "all member lists and reuse/replace histories", "anchors": ["lib/src/parse/ParseBitfieldFieldImpl.cpp:parseUpdateMembers", "lib/src/parse/ParseBitfieldFieldImpl.cpp:parseReplaceMembersImpl"]}
{"id": "C19", "title": "Minimal length never exceeds maximal length", "statement": "For every accepted field the reported minimal serialisation length is <= the reported maximal one.", "quantifier": "every field tree", "why_tests_cant": "unbounded nesting and size_t saturation", "anchors": ["lib/src/parse/ParseListFieldImpl.cpp:parseMinLengthImpl", "lib/src/parse/ParseListFieldImpl.cpp:parseMaxLengthImpl", "lib/src/parse/ParseBundleFieldImpl.cpp:parseMaxLengthImpl"]}
{"id": "C20", "title": "Reported lengths bound every serialisation", "statement": "Any number of bytes a value of the field can occupy lies between the reported minimal and maximal lengths.", "quantifier": "every field tree and every value", "why_tests_cant": "unbounded nesting, all values", "anchors": ["lib/src/parse/ParseFieldImpl.h:parseMinLength", "lib/src/parse/ParseFieldImpl.h:parseMaxLength"]}
{"id": "C21", "title": "Length arithmetic saturates", "statement": "Adding and multiplying lengths gives the exact result when it is below the maximal size_t and the maximal size_t otherwise, and never traps.", "quantifier": "every pair of 64 bit lengths", "why_tests_cant": "2^128 pairs", "anchors": ["lib/src/parse/parse_common.cpp:parseAddToLength", "lib/src/parse/parse_common.cpp:parseMulLength", "lib/src/gen/comms.cpp:genAddLength"]}
{"id": "C22", "title": "Member names are unique", "statement": "Members of an accepted bundle, bitfield, variant, message or interface have pairwise distinct valid names.", "quantifier": "every member list", "why_tests_cant": "all lists", "anchors": ["lib/src/parse/ParseFieldImpl.cpp:parseValidateMembersNames", "lib/src/parse/ParseMessageImpl.cpp:parseUpdateFields"]}
{"id": "C23", "title": "Optional conditions only refer to fields that exist", "statement": "Every leaf of an accepted condition refers to sibling (or interface) fields that exist and compares things that are comparable; conditions are trees of and/or over at least two sub-conditions.", "quantifier": "every condition expression and field list", "why_tests_cant": "all expressions, nesting depths", "anchors": ["lib/src/parse/ParseOptCondImpl.cpp:parseVerify", "lib/src/parse/ParseOptCondImpl.cpp:parseCheckExpr"]}
{"id": "C24", "title": "Condition expression text is parsed unambiguously", "statement": "The operator recognised in a textual condition and its two operands, put together, give back the text (up to blanks).", "quantifier": "every text", "why_tests_cant": "infinite set of texts", "anchors": ["lib/src/parse/ParseOptCondImpl.cpp:parseUpdateExpr"]}
{"id": "C25", "title": "An accepted frame has exactly one payload and well ordered layers", "statement": "An accepted frame has exactly one payload layer, at most one id and size layer, all placed before the payload; checksum and suffix layers are placed as their from/until properties demand.", "quantifier": "every layer list", "why_tests_cant": "all layer permutations", "anchors": ["lib/src/parse/ParseFrameImpl.cpp:parseUpdateLayers", "lib/src/parse/ParseLayerImpl.cpp:parseVerifySingleLayer", "lib/src/parse/ParseChecksumLayerImpl.cpp:parseVerifyImpl"]}
{"id": "C26", "title": "Layer names are unique within a frame", "statement": "An accepted frame has no two layers with the same name.", "quantifier": "every layer list", "why_tests_cant": "all lists", "anchors": ["lib/src/parse/ParseFrameImpl.cpp:parseUpdateLayers"]}
{"id": "C27", "title": "External references resolve to the element they name", "statement": "Looking up the external reference string of a global field, message, interface returns that very element, for any nesting of namespaces; a reference to anything not yet defined fails.", "quantifier": "every namespace tree and every element", "why_tests_cant": "unbounded namespace trees", "anchors": ["lib/src/parse/ParseNamespaceImpl.cpp:parseExternalRef", "lib/src/parse/ParseSchemaImpl.cpp:parseGetNsFromPath", "lib/src/parse/ParseProtocolImpl.cpp:parseExternalRef"]}
{"id": "C28", "title": "Namespaces spread over several files are merged, never shadowed", "statement": "Processing several definitions of the same namespace yields one namespace holding the elements of all of them, and redefinition of an element name is rejected.", "quantifier": "every sequence of files", "why_tests_cant": "all file sequences", "anchors": ["lib/src/parse/ParseProtocolImpl.cpp:parseValidateNamespaces", "lib/src/parse/ParseNamespaceImpl.cpp:processNamespace"]}
{"id": "C29", "title": "Message ids are unique (unless explicitly allowed)", "statement": "If the schema is accepted and does not allow non unique ids, no two messages of the schema have the same id; with several messages of the same id their order values differ.", "quantifier": "every set of messages", "why_tests_cant": "all sets", "anchors": ["lib/src/parse/ParseNamespaceImpl.cpp:parseValidateAllMessages"]}
{"id": "C30", "title": "Messages are listed by (id, order)", "statement": "The reported list of all messages contains every message exactly once and is sorted by id and then by order.", "quantifier": "every set of messages", "why_tests_cant": "all sets", "anchors": ["lib/src/parse/ParseSchemaImpl.cpp:parseAllMessages"]}
{"id": "C31", "title": "Platforms of a message are subset of the declared ones", "statement": "The reported platforms of a message are declared platforms, without repetition: those listed with '+', or all but those listed with '-'; an empty selection is rejected.", "quantifier": "every platforms string", "why_tests_cant": "infinite set of texts", "anchors": ["lib/src/parse/ParseMessageImpl.cpp:parseUpdatePlatforms"]}
{"id": "C32", "title": "Features are gated by dslVersion monotonically", "statement": "A property or feature available at DSL version v is available at every later DSL version, and everything is available when dslVersion is not specified.", "quantifier": "every property and dslVersion", "why_tests_cant": "all version numbers", "anchors": ["lib/src/parse/ParseProtocolImpl.cpp:parseIsFeatureSupported", "lib/src/parse/ParseProtocolImpl.cpp:parseIsPropertySupported"]}
{"id": "C33", "title": "All input files agree on schema name and version", "statement": "When several files describe the same schema, later files may omit but not contradict its properties.", "quantifier": "every sequence of files", "why_tests_cant": "all sequences", "anchors": ["lib/src/parse/ParseProtocolImpl.cpp:parseValidateSchema", "lib/src/parse/ParseSchemaImpl.cpp:parseUpdateUnsignedProperty"]}
{"id": "C34", "title": "Generated element presence follows version arithmetic", "statement": "With schema version V and minimal remote version M an element [since, deprecated) is generated iff since <= V and it was not removed before the oldest remote version; it is version-optional iff some supported remote version lacks it.", "quantifier": "every version combination", "why_tests_cant": "all 32 bit combinations", "anchors": ["lib/src/gen/GenSchema.cpp:genDoesElementExist", "lib/src/gen/GenSchema.cpp:genIsElementOptional"]}
{"id": "C35", "title": "Numbers are printed as C++ literals of the same value", "statement": "The literal generated for any 64 bit signed or unsigned number denotes that number (including the most negative one).", "quantifier": "every 64 bit number", "why_tests_cant": "2^64 numbers", "anchors": ["lib/src/gen/util.cpp:genNumToString"]}
{"id": "C36", "title": "Template substitution replaces every placeholder", "statement": "Processing a template replaces each #^#NAME#$# placeholder by its replacement and leaves all other text unchanged.", "quantifier": "every template and replacement map", "why_tests_cant": "infinite", "anchors": ["lib/src/gen/util.cpp:genProcessTemplate"]}
{"id": "C37", "title": "Generated class and accessor names do not collide", "statement": "Distinct DSL member names give distinct generated class names and accessor names.", "quantifier": "every pair of names", "why_tests_cant": "infinite", "anchors": ["lib/src/gen/comms.cpp:genClassName", "lib/src/gen/comms.cpp:genAccessName"]}
{"id": "C38", "title": "Include lists are sorted and duplicate free and complete", "statement": "The generated include block contains each requested header exactly once.", "quantifier": "every list of headers", "why_tests_cant": "infinite", "anchors": ["lib/src/gen/comms.cpp:genPrepareIncludeStatement"]}
{"id": "C39", "title": "Wrapping long text preserves it", "statement": "Breaking long descriptions into lines neither loses nor reorders words and respects the width where a blank allows it.", "quantifier": "every text and width", "why_tests_cant": "infinite", "anchors": ["lib/src/gen/util.cpp:genStrMakeMultiline"]}
{"id": "C40", "title": "Splitting strings is inverse to joining", "statement": "Splitting by a separator and joining with it gives the original; tokens contain no separator.", "quantifier": "every text", "why_tests_cant": "infinite", "anchors": ["lib/src/gen/util.cpp:genStrSplit"]}
{"id": "C41", "title": "Unsigned 64 bit property values denote the written number", "statement": "A text accepted as an unsigned 64 bit number (values of uint64/uintvar fields, message ids of unsigned fields) stands for the number that was written.", "quantifier": "every text", "why_tests_cant": "infinite set of texts; only negative literals misbehave", "anchors": ["lib/src/parse/parse_common.cpp:parseStrToUintMax"]}
{"id": "C42", "title": "Attributes of fields are those written, else those of the reused field, else the documented defaults", "statement": "Every attribute an accepted field reports (display name, description, semantic type, pseudo, customizable, overrides, endian, type, scaling, units, serialisation offset, default and reserved bits, encoding, count, default mode, default member, ...) is the value written for the property, if it is written; otherwise that of the field named by reuse; otherwise the documented default. Properties the DSL version does not know are ignored.", "quantifier": "every field element of every kind, every set of fields defined before, every DSL version", "why_tests_cant": "attributes, texts and reuse chains combine without bound", "anchors": ["lib/src/parse/ParseFieldImpl.cpp:parseCheckReuse,parseUpdateName,parseUpdateDescription,parseUpdateOverrideProps", "lib/src/parse/ParseIntFieldImpl.cpp:parseImpl", "lib/src/parse/ParseFloatFieldImpl.cpp:parseUpdateEndian", "lib/src/parse/ParseRefFieldImpl.cpp:parseImpl"]}
{"id": "C43", "title": "Default and valid values of strings and raw data are those written", "statement": "The default value of a string field is the text written (or that of the field referred to by ^), that of a data field exactly the bytes written as hexadecimal digits; the list of valid values consists of exactly those listed (attribute, child elements with their versions, default valid value, reused field), in ascending order.", "quantifier": "every <string> and <data> element, every text", "why_tests_cant": "the texts and lists are unbounded", "anchors": ["lib/src/parse/ParseDataFieldImpl.cpp:parseStrToValue,parseUpdateValidValues", "lib/src/parse/ParseStringFieldImpl.cpp:parseStrToValue,parseUpdateValidValues"]}
{"id": "C44", "title": "The extent of strings, data and lists is given in one way", "statement": "An accepted string or data field has at most one of: fixed length, length prefix, zero termination suffix; an accepted list at most one of: count, count prefix, length prefix, termination suffix, also when parts of it come from a reused field.", "quantifier": "every accepted field and every field inside it", "why_tests_cant": "the ways can be combined over reuse chains of any length", "anchors": ["lib/src/parse/ParseStringFieldImpl.cpp:parseUpdateLength,parseUpdateLengthPrefix,parseUpdateZeroTerm", "lib/src/parse/ParseListFieldImpl.cpp:parseUpdateCount,parseUpdateCountPrefix"]}
{"id": "C45", "title": "validateMinLength guarantees the minimal length", "statement": "When validateMinLength is given (and known to the DSL version) an accepted field or message has exactly this minimal serialisation length.", "quantifier": "every accepted field or message element with the property", "why_tests_cant": "minimal lengths depend on nested fields without bound", "anchors": ["lib/src/parse/ParseFieldImpl.cpp:parseVerifyMinLength", "lib/src/parse/ParseMessageImpl.cpp:parseUpdateFields"]}
{"id": "C48", "title": "Keyword texts are read as documented", "statement": "A text is accepted as a boolean, endian, unit of measurement, override type, semantic type, integer or float type, default mode or sender exactly when it is one of the documented keywords (ignoring case, for units also spaces), and stands for the documented meaning; a field only has a semantic type its kind may have in the DSL version.", "quantifier": "every text", "why_tests_cant": "all texts, not only the keywords, must be classified", "anchors": ["lib/src/parse/parse_common.cpp:parseStrToBool,parseStrToUnits", "lib/src/parse/ParseFieldImpl.cpp:parseUpdateSemanticType,parseVerifySemanticType"]}
{"id": "C46", "title": "Namespaces of generated definitions match the names used for them", "statement": "Around every generated definition the namespaces opened in front are closed behind it in reverse order, and for a global field, message, interface or frame they are exactly the ones by which all other generated code refers to it.", "quantifier": "every element path, every namespace nesting, every configured top namespace", "why_tests_cant": "namespace nesting is unbounded; a test covers a few depths", "anchors": ["lib/src/gen/comms.cpp:genNamespaceBeginFor,genNamespaceEndFor,genScopeFor"]}
{"id": "C47", "title": "The C++ type of an integer field holds its values", "statement": "The C++ integer type written for an integer field holds every number its serialised form can carry and, without serialisation offset, every number between the minimum and maximum the parser reports.", "quantifier": "every accepted integer field, every number in its range", "why_tests_cant": "the range is not enumerable and depends on type, length and bit length", "anchors": ["lib/src/gen/comms.cpp:genCppIntTypeFor", "app/commsdsl2comms/src/CommsIntField.cpp:commsDefBaseClassInternal"]}
{"id": "C49", "title": "Offsets, scaling and units reach the generated class unchanged", "statement": "The options of a generated integer class carry exactly the serialisation offset, display offset, scaling ratio and units of the parsed field (or are left out if they have no effect), and options are generated for every field.", "quantifier": "every accepted integer field and generator setting", "why_tests_cant": "all numbers and all combinations of properties", "anchors": ["app/commsdsl2comms/src/CommsIntField.cpp:commsAddSerOffsetOptInternal,commsAddScalingOptInternal,commsAddUnitsOptInternal", "lib/src/gen/util.cpp:genNumToString"]}
{"id": "C50", "title": "A generated integer class accepts exactly the valid values", "statement": "valid() of the generated class of an integer field holds for a value exactly if no valid ranges are defined or a range (of the version of the message, if version checks are on) covers it.", "quantifier": "every accepted integer field, every value, every supported version", "why_tests_cant": "values, ranges and versions are not enumerable; merging of ranges depends on all of them", "anchors": ["app/commsdsl2comms/src/CommsIntField.cpp:commsAddValidRangesOptInternal,commsDefValidFuncBodyImpl"]}
{"id": "C51", "title": "A generated integer class has the parsed serialisation length", "statement": "The generated class of an integer field is serialised with the number of bytes (least and most for variable length, bits in a bitfield) the parser reports.", "quantifier": "every accepted integer field", "why_tests_cant": "all types, lengths and reuse chains", "anchors": ["app/commsdsl2comms/src/CommsIntField.cpp:commsAddLengthOptInternal"]}
{"id": "C52", "title": "A generated integer class has the parsed default value", "statement": "An object of the generated class of an integer field starts with the default value the parser reports; a version field without default value with the version of the schema.", "quantifier": "every accepted integer field", "why_tests_cant": "all 64 bit numbers, signed and unsigned", "anchors": ["app/commsdsl2comms/src/CommsIntField.cpp:commsAddDefaultValueOptInternal"]}
{"id": "C53", "title": "Special values of generated integer classes", "statement": "The generated class has for every special value in a supported version a function that returns it, and the map of special names lists all of them by value, each with its function.", "quantifier": "every accepted integer field, every set of special values", "why_tests_cant": "sets of special values of any size and any versions", "anchors": ["app/commsdsl2comms/src/CommsIntField.cpp:commsCommonSpecialsCodeInternal,commsCommonSpecialNamesMapCodeInternal", "lib/src/gen/GenIntField.cpp:genSpecialsSortedByValue"]}
{"id": "C54", "title": "Conditions of optional fields in generated code", "statement": "The refresh function generated for a conditional optional field sets the mode of the field to exists exactly when the condition written in the schema holds for the values of the other fields, whatever they are; the condition is generated as a C++ expression with that value.", "quantifier": "every condition of the supported forms (bits, existence, sizes, comparisons with numbers, names, texts and other fields, nested and/or of any depth), every assignment of values to the sibling fields", "why_tests_cant": "conditions nest without bound and must agree with the generated expression on every assignment of values", "anchors": ["app/commsdsl2comms/src/CommsOptionalField.cpp:commsDslCondToStringInternal,commsDefRefreshFuncBodyInternal", "app/commsdsl2comms/src/CommsField.cpp:commsFieldAccessStr,commsCompPrepValueStr,commsValueAccessStr,commsCompOptChecks"]}
{"id": "C55", "title": "Float fields", "statement": "An accepted <float> field has the length of its type; its default value and special values are the numbers written and are representable in the type; special value names are identifiers and unique; valid ranges are those written, sorted and disjoint within a version range.", "quantifier": "every float field description, with or without reuse, every text-to-double conversion", "why_tests_cant": "the numbers and ranges are unbounded in count and the doubles include infinities and NaN", "anchors": ["lib/src/parse/ParseFloatFieldImpl.cpp:parseImpl,parseUpdateDefaultValue,parseUpdateValidRanges,parseUpdateSpecials"]}
{"id": "C56", "title": "Flags, byte order, type and functions of generated integer classes", "statement": "The class generated for an integer field carries exactly the flags of the schema (pseudo, fixedValue, failOnInvalid, availableLengthLimit) and of the custom code, has the byte order and a value type of the field, its valid() is the library's or one of the version dependent checks, its refresh() makes an invalid field that must not be invalid valid, and its name() returns the display name, by default the name.", "quantifier": "every accepted integer field, every combination of flags, custom code and settings, every pair of byte orders, every display name", "why_tests_cant": "flags combine freely and the texts are unbounded", "anchors": ["app/commsdsl2comms/src/CommsField.cpp:commsAddFieldDefOptions,commsFieldBaseParams,commsCommonNameFuncCode", "app/commsdsl2comms/src/CommsIntField.cpp:commsDefRefreshFuncBodyImpl,commsDefValidFuncBodyImpl,commsDefBaseClassInternal", "lib/src/gen/util.cpp:genDisplayName,genStrToMacroName"]}
{"id": "C57", "title": "The command line means what it says", "statement": "Every command line of commsdsl2comms without empty arguments can be read in exactly one way, and the tool reads it that way: arguments that belong to no option are the input files, in order; what looks like an option and is none is reported; an option counts as used exactly if its letter or its name is given, and its value is the last one given, else the default. The schema files are those of the list file (one per line, below the prefix directory) followed by those on the command line. Numbers given for the oldest remote version and for the version to generate are used as given; the version of the generated code has at least three parts; every schema gets the namespace asked for it by name, the last one the namespace asked for without a name. Refuted: an empty value is skipped and the next argument takes its place; a missing value at the end is not reported; a forced version that is not a number means 0, a negative one or one from 2^31 on is ignored.", "quantifier": "all argument lists of any length, all contents of the list file, all schema names", "why_tests_cant": "argument lists are unbounded and every option can stand anywhere, be repeated, or swallow what follows it", "anchors": ["lib/src/gen/GenProgramOptions.cpp: genParse, genAddInternal, genPrepareOpts, genIsOptUsed, genValue, genGetInputFiles, genGetMinRemoteVersion, genGetForcedSchemaVersion", "app/commsdsl2comms/src/CommsProgramOptions.cpp: CommsProgramOptions", "lib/src/gen/GenGenerator.cpp: genSetNamespaceOverride, genGetCodeVersionTokens, genPrepare", "lib/src/gen/util.cpp: genStrSplitByAnyChar, genPathAddElem, genStrToUnsigned, genStrToName"]}
{"id": "C58", "title": "Generated factories, dispatch and message lists agree with the schema", "statement": "For every namespace of an accepted protocol, commsdsl2comms generates lists of messages (all, those the client receives, those the server receives, each also per platform). Each list has exactly the messages of the namespace and of those inside it which the side can receive and the platform supports, each once, ordered by id and then by order. The generated factory's createMsg(id, idx) creates the idx-th message of the list with that id and otherwise none with the reason InvalidId; msgCount(id) is their number; hasUniqueIds holds exactly if no two share an id; labels of its switch are distinct. The generated dispatch functions hand a message to the handler as the class of the (idx-th) message with the id, otherwise as the interface. The enumeration of message ids has one enumerator per message with its id as value, and its type holds all of them. Refuted: the id 2^63 is undefined behaviour; an id with one message ignores the index when other ids are shared; enumerators and aliases of different messages can coincide; a platform named clientInput overwrites the client's list.", "quantifier": "all accepted protocols, all namespaces of any depth, all platforms, all ids and indices", "why_tests_cant": "the number and nesting of messages is unbounded and every id and index is possible", "anchors": ["app/commsdsl2comms/src/CommsMsgFactory.cpp: commsWriteFileInternal, commsGetMsgAllocCodeInternal, commsGetMsgCountCodeInternal", "app/commsdsl2comms/src/CommsDispatch.cpp: commsDispatchCodeInternal, commsCasesCodeInternal", "app/commsdsl2comms/src/CommsInputMessages.cpp: writeFileInternal", "app/commsdsl2comms/src/CommsMsgId.cpp: commsIdsInternal, commsTypeInternal", "lib/src/gen/GenNamespace.cpp: genGetAllMessages, genGetAllMessagesIdSorted"]}
{"id": "C59", "title": "Generated enum classes have the declared values", "statement": "For every accepted enum field, the enum class commsdsl2comms writes has as enumerators exactly the declared values of the generated version under their names and with their numbers, in ascending order, followed by FirstValue, LastValue and (if the type has it) ValuesLimit with the least number, the greatest number and its successor, under names no value uses; all names are different, comments do not hide enumerators, and unless the length is variable the numbers fit the underlying type. Refuted: a uint64 enum whose greatest value is 2^63-1 is undefined behaviour in the generator; values of enums of variable length need not fit the chosen type; values named like keywords are written as they are.", "quantifier": "all accepted enum fields (also reused ones), all types, lengths, numbers, names, descriptions and version settings", "why_tests_cant": "the number of values and all their numbers, names and descriptions are unbounded", "anchors": ["app/commsdsl2comms/src/CommsEnumField.cpp: commsEnumValues, commsCommonEnumInternal", "lib/src/gen/GenEnumField.cpp: genPrepareImpl, genValueToString, genAdjustName, genHasValuesLimit", "lib/src/parse/ParseEnumFieldImpl.cpp: parseUpdateValues, parseUpdateHexAssign"]}
{"id": "C60", "title": "A generated enum field accepts the declared values", "statement": "The generated class of an enum field treats a value as valid exactly if it is the number of a declared value: if the validity does not depend on the version, of a value that exists in the generated version and has not been deprecated before the least supported one; if it does, in every version of the remote side of a value which exists in that version. It is serialised with the length and starts with the default value which the schema gives.", "quantifier": "every accepted enum field, however it was derived from others, every set of values, number of the value and version of the remote side", "why_tests_cant": "the values are merged into ranges, ranges become options, nested conditions or a sorted array depending on their number, signedness and versions; the claim ranges over all numbers and versions", "anchors": ["app/commsdsl2comms/src/CommsEnumField.cpp: commsPrepareValidRangesInternal, commsDefValidFuncBodyImpl, commsAddValidRangesOptInternal, commsAddDefaultValueOptInternal, commsAddLengthOptInternal, commsDefFieldOptsInternal", "lib/src/gen/GenSchema.cpp: genDoesElementExist"]}
{"id": "C61", "title": "Generated enum fields report the names of their values", "statement": "For every number, the generated valueName() returns nothing if no value of the schema has the number, and otherwise the display name (the name, if there is none) of a value which has it, of one which is not deprecated in the generated version if there is such a value. This holds for both layouts of the generated table: an array indexed by the number and a sorted array which is searched.", "quantifier": "every accepted enum field, every set of values (also with repeated numbers), every number", "why_tests_cant": "the layout depends on the numbers, gaps are filled, repeated numbers are left out and replaced; the claim is about every number of the type and every set of values", "anchors": ["app/commsdsl2comms/src/CommsEnumField.cpp: commsIsDirectValueNameMappingInternal, commsCommonValueNamesMapDirectBodyInternal, commsCommonValueNamesMapBinSearchBodyInternal, commsBigUnsignedValueNamePairs, commsSignedValueNamePairs, commsCommonValueNameFuncCode", "lib/src/parse/ParseEnumFieldImpl.cpp: parseIsUnique"]}
{"id": "C62", "title": "Generated set fields have the declared length, default bits and reserved bits", "statement": "The class generated for a set field is serialised with the length (in a bitfield: the number of bits) the schema gives; a default constructed object has exactly the bits which the declarations of the bits, or the field for undeclared bits, ask for; and unless the code depends on the version, a value is valid exactly if every reserved or undeclared bit has its reserved value.", "quantifier": "every accepted set field (also by reuse), every set of bits, every bit index, every value", "why_tests_cant": "the two masks are built by shifting and masking over all declared bits, in 64 bits, cut to the length of the field; the claim is about each of up to 2^64 values", "anchors": ["app/commsdsl2comms/src/CommsSetField.cpp: commsDefFieldOptsInternal, commsAddLengthOptInternal, commsAddDefaultValueOptInternal, commsAddReservedBitsOptInternal", "lib/src/parse/ParseSetFieldImpl.cpp: parseUpdateBits"]}
{"id": "C63", "title": "Validity of version dependent bits of generated set fields", "statement": "If the code depends on the version and the field asks for it (validCheckVersion), the generated valid() accepts a value in a supported version exactly if every bit which is part of that version and not reserved may be anything, and every other bit has its reserved value (the one of its declaration, or the field's if it is not declared). The body is always generated, and if there is one the object stores its version.", "quantifier": "every accepted set field, every set of bits with any versions, also several bits of one index, every supported version, every value", "why_tests_cant": "bits are grouped by their versions into masks, bits which share an index are taken out and get a list of version gaps instead; the claim is about each value, version and combination of version ranges", "anchors": ["app/commsdsl2comms/src/CommsSetField.cpp: commsDefValidFuncBodyImpl, commsAddReservedBitsOptInternal"]}
{"id": "C64", "title": "Names and access functions of the bits of generated set fields", "statement": "The access code of a generated set class names exactly the bits which are declared, each with its declared index: they are left to be numbered in sequence only if they are numbered that way. bitName(idx) reports the display name of a bit declared with this index (the name if there is none), preferably of one which is not deprecated, and nullptr for all other indices. This code is generated for every accepted field.", "quantifier": "every accepted set field, also one which reuses another, every set of bits with any indices, several names of one index, gaps, deprecated ones, every index", "why_tests_cant": "whether the bits are in sequence is decided by arithmetic on a 64 bit mask which wraps around when all bits are used; the claim is about every set of indices", "anchors": ["app/commsdsl2comms/src/CommsSetField.cpp: commsDefBitsAccessCodeInternal, commsCommonBitNameFuncCodeInternal"]}
{"id": "C65", "title": "Which messages and interfaces code is generated for", "statement": "Unless told otherwise the generator produces code for every message and every interface of the protocol. Given a file with a list of messages it produces code for exactly those which the lines of the file name, and refuses a file with a line which names none; given a platform, for exactly the messages which support it, in the schemas which declare it; given an interface, for this interface and no other. A list together with a platform, a file which cannot be read, a platform or an interface which does not exist are refused. No code is generated for anything which is not defined.", "quantifier": "every accepted protocol of any number of schemas and depth of namespaces, every contents of the file with the list, every platform and interface name, every message and interface", "why_tests_cant": "the selection depends on where in the tree of namespaces and in which schema a message is defined; the claim is about all trees and all contents of the list", "anchors": ["lib/src/gen/GenGenerator.cpp: genReferenceRequestedInterfacesInternal, genReferenceRequestedMessagesInternal, genProcessMessagesListFileInternal, genProcessForcedPlatformInternal", "lib/src/gen/GenNamespace.cpp: genSetAllMessagesReferenced, genSetAllInterfacesReferenced, genGetAllInterfaces", "lib/src/gen/GenMessage.cpp: genWrite"]}
{"id": "C66", "title": "The generator finds global elements by their references", "statement": "Every global field, message, interface and frame of every schema is found by the generator by its external reference, from any schema by the one with the name of its schema and in its own schema by the one without it; what is found is that element. Nothing is found by a text which is not the place of an element, references of different messages differ, and an element to which the parser resolved a reference is the one the generator finds by the external reference of that element.", "quantifier": "every accepted protocol of any number of schemas and depth of namespaces, every element of it, every text of a reference", "why_tests_cant": "the lookup is a binary search in lists sorted by the parser at each level of the namespaces and relies on their order, which the parser's own maps do not have; the claim is about all names and all depths", "anchors": ["lib/src/gen/GenGenerator.cpp: genFindField, genGindMessage, genFindFrame, genFindInterface, genParseExternalRef", "lib/src/gen/GenSchema.cpp: genFindField, genGindMessage, genFindFrame, genFindInterface", "lib/src/gen/GenNamespace.cpp: genFindField, genGindMessage, genFindFrame, genFindInterface"]}
{"id": "C67", "title": "The layers of a frame are nested so that the wire has the declared order", "statement": "For every accepted frame the generator comes to an end arranging its layers into a stack. The code generated from the stack puts the fields of the layers on the wire in the order in which the layers are declared: a layer before the payload in front of what its inner layers write, a layer after the payload behind. A suffix layer which says where it starts encloses exactly what is written from there up to itself; one which does not encloses the payload, the suffixes before it and what these enclose. The generator refuses exactly the frames with a layer which has no place in such a stack: a checksum in front of the data which does not extend to the payload, a custom layer other than a checksum or an unsupported synchronisation prefix after the payload.", "quantifier": "every accepted frame of any number of layers of all kinds in any order, with any from/until references", "why_tests_cant": "the arrangement is a loop which restarts whenever a layer moves itself, with no bound on the number of turns; that it ends and in what order depends on how many suffix layers there are and where each starts", "anchors": ["lib/src/gen/GenFrame.cpp: getCommsOrderOfLayers", "lib/src/gen/GenLayer.cpp: genForceCommsOrderImpl, genAdjustSuffixLayersOrder", "lib/src/gen/GenChecksumLayer.cpp: genForceCommsOrderImpl", "lib/src/gen/GenSyncLayer.cpp: genForceCommsOrderImpl", "lib/src/gen/GenCustomLayer.cpp: genForceCommsOrderImpl"]}
{"id": "C68", "title": "Aliases stand for fields that are there", "statement": "Every alias a bundle, a message or an interface reports leads, through bundles and bitfields along its dotted path, to a field of it; the names of its aliases are identifiers and no two of them are the same (up to the case of the first letter); without reuse and copied fields the aliases are those written in the element, in that order, and none has the name of a field; a bundle that reuses another one keeps the aliases whose member is still there.", "quantifier": "all accepted bundles at any depth of any field, message and interface (and the copies made of them), all messages and interfaces, with any chain of reuse, replacement and copied fields", "why_tests_cant": "the aliases of an element depend on all elements it reuses or copies, and paths may go to any depth", "anchors": ["lib/src/parse/ParseAliasImpl.cpp: ParseAliasImpl::parse, parseVerifyAlias", "lib/src/parse/ParseBundleFieldImpl.cpp: parseUpdateAliases", "lib/src/parse/ParseMessageImpl.cpp: parseCopyAliases, parseUpdateAliases", "lib/src/parse/ParseInterfaceImpl.cpp: parseCopyAliases, parseUpdateAliases", "lib/src/parse/ParseFieldImpl.cpp: parseVerifyAliasedMember"]}
{"id": "C69", "title": "Default and valid values of string and data classes", "statement": "The class generated for a string or data field starts with the default value of the schema, and if the schema lists valid values, its valid() accepts exactly the values listed for some version the peer may have (those of the options the base class checks apart); the table it looks them up in is sorted as std::lower_bound requires; a field without default and list has no such code.", "quantifier": "all string and data fields of all accepted fields, with any lists of valid values with versions, all schema versions, forced versions and minimal remote versions, all values of the field at run time", "why_tests_cant": "the lists, texts and bytes are unbounded, and the code is right only if the table is sorted for every list and every subset of it that the versions leave", "anchors": ["app/commsdsl2comms/src/CommsStringField.cpp: commsDefConstructCodeImpl, commsDefValidFuncBodyImpl", "app/commsdsl2comms/src/CommsDataField.cpp: commsBytesToString, commsDefConstructCodeImpl, commsDefValidFuncBodyImpl", "lib/src/parse/ParseStringFieldImpl.cpp, ParseDataFieldImpl.cpp: parseUpdateValidValues"]}
{"id": "C70", "title": "Extents of string, data and list classes", "statement": "The options of the class generated for a string, data or list field which determine its extent are exactly those the schema asks for: a fixed size with the number of the schema, a prefix or suffix of the class of the field the schema names, the zero byte suffix, and the forcing options exactly for those which are other members; a string that has its own extent has at most one of them; the class derives from the COMMS class with these options and, for a list, the class of its elements.", "quantifier": "all string, data and list fields of all accepted fields, all settings of the other options, all names and namespaces", "why_tests_cant": "the numbers, names and combinations of attributes are unbounded and pass through the parser, reuse and the templates", "anchors": ["app/commsdsl2comms/src/CommsStringField.cpp: commsDefFieldOptsInternal, commsAddFixedLengthOptInternal, commsAddLengthPrefixOptInternal, commsAddTermSuffixOptInternal, commsDefBaseClassImpl", "app/commsdsl2comms/src/CommsDataField.cpp: commsDefFieldOptsInternal, commsDefBaseClassImpl", "app/commsdsl2comms/src/CommsListField.cpp: commsDefFieldOptsInternal, commsDefElementInternal, commsDefBaseClassImpl"]}
{"id": "C71", "title": "Lengths and counts kept in other fields", "statement": "When the length of a string or data field, or the count, length or element length of a list, is the value of another member of the same message or bundle, the generated code tells the class of the field the number in the other member before it is read (and nothing if one of the two is missing), and the generated refresh function always ends, makes the number and the extent of the sequence equal, cuts off only what the type of the number cannot express, changes nothing else and returns whether it changed something.", "quantifier": "all members with such a property, all members and bundles around them, all names, all values and presences of the members at run time, all numbers of all C++ integral types and all sequences of elements of any lengths (below 2^63 in total)", "why_tests_cant": "sequences and numbers are unbounded and the function contains a loop; the accesses depend on the names, versions and nesting of arbitrary members", "anchors": ["app/commsdsl2comms/src/CommsStringField.cpp: commsDefBundledReadPrepareFuncBodyImpl, commsDefBundledRefreshFuncBodyImpl", "app/commsdsl2comms/src/CommsDataField.cpp: commsDefBundledReadPrepareFuncBodyImpl, commsDefBundledRefreshFuncBodyImpl", "app/commsdsl2comms/src/CommsListField.cpp: commsDefBundledReadPrepareFuncBodyImpl, commsDefBundledRefreshFuncBodyImpl", "app/commsdsl2comms/src/CommsField.cpp: commsFieldAccessStr"]}
{"id": "C72", "title": "Members are prepared just before they are read, and refreshed in order", "statement": "The generated read function of a message or bundle reads the members one after another in the order of the schema, and a member whose extent or existence depends on other members is told what these say immediately before it is read, after all members before it were read; reading stops at the first member which cannot be read, with its status. A message whose condition for being read is not met is not read at all, and the members learn the version first. The refresh function refreshes the base class and then each such member once and in order and returns whether anything changed. The functions called are defined, and the base class is told that there are such functions exactly if there are. Messages and bundles without such members get no function of their own.", "quantifier": "all messages and bundles with any number of members of any kinds, all positions of the members which need preparation, all behaviours of the members at run time (reading, preparing, refreshing as arbitrary functions of the state and the remaining length)", "why_tests_cant": "the function is assembled from ranges between the members which need preparation; each combination of positions gives other code, and the statuses and lengths at run time are arbitrary", "anchors": ["app/commsdsl2comms/src/CommsMessage.cpp: commsDefReadFuncInternal, commsDefRefreshFuncInternal, commsDefPrivateInternal, commsDefReadConditionsCodeInternal, commsDefExtraOptionsInternal", "app/commsdsl2comms/src/CommsBundleField.cpp: commsDefReadFuncBodyImpl, commsDefRefreshFuncBodyImpl, commsDefPrivateCodeImpl", "app/commsdsl2comms/src/CommsOptionalField.cpp: commsDefBundledReadPrepareFuncBodyImpl"]}
{"id": "C73", "title": "Validity conditions of messages and bundles", "statement": "The generated validity function of a message or bundle with a validity condition returns false if the base class finds a member invalid, and otherwise the value of an expression which, on the generated classes, is what the condition means on the values of the members; without condition no function is generated.", "quantifier": "all conditions of any nesting, all members, all values at run time", "why_tests_cant": "conditions nest without bound and speak about arbitrary values of arbitrary members", "anchors": ["app/commsdsl2comms/src/CommsMessage.cpp: commsDefOrigValidCodeInternal", "app/commsdsl2comms/src/CommsBundleField.cpp: commsDefValidFuncBodyImpl", "app/commsdsl2comms/src/CommsOptionalField.cpp: commsDslCondToString"]}
{"id": "C74", "title": "Variants told apart by a key", "statement": "For a variant field whose members are (or refer to) bundles, each but possibly the last starting with an integer field that has one valid value only and fails on any other, the generated read function reads the key once, selects exactly the member with this key (the last one if it accepts any key and no other member has this key) and reads the rest of it; an unknown key gives InvalidMsgData, and an error of reading the key is returned. Members which are not told apart in this way get no such function; those with keys of one type, one set of options and one order of bytes and with different labels get one, and the key is read with this type.", "quantifier": "every list of members (any kind, any order, references followed), every key value and type, every result of reading the key and the rest", "why_tests_cant": "The choice depends on every combination of members and every value that can be read; tests check a few variants.", "anchors": ["app/commsdsl2comms/src/CommsVariantField.cpp: commsDefReadFuncBodyImpl, commsOptimizedReadKeyInternal, commsBundleGetValidPropKeyInternal", "app/commsdsl2comms/src/CommsIntField.cpp: commsVariantPropKeyValueStr, commsVariantIsValidPropKey, commsVariantIsPropKeyEquivalent, commsVariantPropKeyType"]}
{"id": "C75", "title": "The generated stack of framing layers", "statement": "In the generated code of a frame there is one definition per layer, each wrapping the definition of the next layer towards the payload, so that following the names from the final stack definition gives exactly the layers of the frame in the order of C67, outermost first and the payload innermost, each with the library class and arguments its kind and attributes ask for (checksum in front of or after the data with its algorithm, sync prefix or suffix, pseudo values, verification before read). A definition takes the types of messages exactly when a layer at its place or further inside deals with message numbers, every use of it passes them, and the frame passes them to the stack in the same case.", "quantifier": "every list of layers with the payload innermost, every text for their fields, options and documentation; every accepted frame covered by C67", "why_tests_cant": "Which definitions are templates and what they wrap depends on every combination and order of layers; tests build a few frames.", "anchors": ["app/commsdsl2comms/src/CommsFrame.cpp: commsDefLayersDefInternal, commsDefFrameBaseInternal, commsDefAccessListInternal, commsHasIdLayerInternal", "app/commsdsl2comms/src/CommsLayer.cpp: commsDefType", "app/commsdsl2comms/src/CommsChecksumLayer.cpp, CommsCustomLayer.cpp, CommsIdLayer.cpp, CommsPayloadLayer.cpp, CommsSizeLayer.cpp, CommsSyncLayer.cpp, CommsValueLayer.cpp: commsDefBaseTypeImpl"]}
{"id": "C76", "title": "The default constructor of a message does what the construct property asks for", "statement": "For a message whose construct property asks for bits (\"%field.bit\", \"!%field.bit\") and equal numbers (\"%field = number or name\") of fields of the interface, alone or nested in \"and\", the generated default constructor consists of exactly one statement per part, in their order; they can be executed, and after them every part holds, no field that is not mentioned has changed and no bit that is not mentioned either, whatever the values were before.", "quantifier": "every condition of this shape, every set of interfaces, every value of their fields beforehand, every message name", "why_tests_cant": "Field and bit names, types, special values, nesting and the values before construction vary without bound; tests compile a few messages.", "anchors": ["app/commsdsl2comms/src/CommsMessage.cpp: commsFindInterfaceFieldInternal, commsInterfaceFieldAccStrInternal, commsUpdateConstructBoolInternal, commsUpdateConstructExprInternal, commsUpdateConstructCodeInternal, commsDefConstructInternal, commsPrepareConstructCodeInternal", "app/commsdsl2comms/src/CommsField.cpp: commsFieldAccessStr", "lib/src/parse/ParseMessageImpl.cpp: parseVerifyConstructInternal"]}
{"id": "C77", "title": "A message is read only if its read condition holds", "statement": "For a message with a readCond about bits and numbers of fields of the interface (comparison with any operator, numbers or names of special values, \"and\" and \"or\" nested at will), the generated read function starts by giving the message up unless an expression holds which has exactly the value of the condition, for all values of the fields. If it holds, the members are read as without the condition (C72); if not, none is read and nothing changes. With constructAsReadCond=\"true\" (where the DSL version knows it) the condition is that of the construct property, and then the expression is true after the default constructor, whatever the values were before.", "quantifier": "every condition of this shape, every set of interfaces, all values of their fields", "why_tests_cant": "Conditions nest without bound and the values of the fields are arbitrary; tests check a few messages.", "anchors": ["app/commsdsl2comms/src/CommsMessage.cpp: commsDefReadConditionsCodeInternal, commsPrepareConstructCodeInternal", "app/commsdsl2comms/src/CommsOptionalField.cpp: commsDslCondToString, commsDslCondToStringFieldValueCompInternal", "app/commsdsl2comms/src/CommsField.cpp: commsValueAccessStr, commsCompOptChecks, commsCompValueCastType, commsVerifyInnerRef"]}
