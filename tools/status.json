{
 "C02": {
  "note": "missing or false of the code: false from 2^32 on"
 },
 "C21": {
  "note": "missing or false of the code: factor 0 traps"
 },
 "C41": {
  "note": "missing or false of the code: negative literals wrap"
 },
 "C06": {
  "note": "missing or false of the code: false for defaultValue/reservedValue of sets"
 },
 "C07": {
  "note": "missing or false of the code: false for members of reused fields"
 },
 "C08": {
  "note": "missing or false of the code: bitLength 0 shifts by \u22121"
 },
 "C09": {
  "note": "missing or false of the code: false (wraps) otherwise"
 },
 "C11": {
  "note": "missing or false of the code: value uniqueness false with reuse"
 },
 "C12": {
  "note": "missing or false of the code: false for unsigned 64 bit values \u2265 2^63 and for a range ending at INT64_MAX"
 },
 "C13": {
  "note": "missing or false of the code: disjointness false for the same reasons"
 },
 "C15": {
  "note": "missing or false of the code: value uniqueness false when the reusing element switches nonUniqueAllowed off"
 },
 "C16": {
  "note": "missing or false of the code: index range false for a reusing set in a bitfield"
 },
 "C17": {
  "note": "missing or false of the code: length 0 or >64 bits index the type table out of bounds"
 },
 "C18": {
  "note": "missing or false of the code: false for replaced members, refs to unlimited fields, no members"
 },
 "C20": {
  "note": "missing or false of the code: false for pseudo fields, availableLengthLimit, wrapped bitfields"
 },
 "C23": {
  "note": "missing or false of the code: reused conditions and replaced members are not verified again"
 },
 "C25": {
  "note": "missing or false of the code: false through `<custom>` layers"
 },
 "C26": {
  "note": "missing or false of the code: uniqueness false: only reported"
 },
 "C29": {
  "note": "missing or false of the code: false across namespaces"
 },
 "C30": {
  "note": "missing or false of the code: false: nested namespaces are left out"
 },
 "C31": {
  "note": "missing or false of the code: reuse and several schemas"
 },
 "C32": {
  "note": "missing or false of the code: acceptance as a whole is not monotone"
 },
 "C33": {
  "note": "missing or false of the code: contradicting dslVersion is accepted"
 },
 "C34": {
  "note": "missing or false of the code: --force-ver cases"
 },
 "C35": {
  "note": "missing or false of the code: INT64_MIN"
 },
 "C36": {
  "note": "missing or false of the code: unterminated placeholder"
 },
 "C37": {
  "note": "missing or false of the code: collisions exhibited (members, files, member structs)"
 },
 "C38": {
  "note": "missing or false of the code: duplicates that differ in spelling"
 },
 "C39": {
  "note": "missing or false of the code: width"
 },
 "C40": {
  "note": "missing or false of the code: empty last token, empty separator"
 },
 "C42": {
  "note": "missing or false of the code: overrides and float endian are not reused"
 },
 "C44": {
  "note": "missing or false of the code: sibling prefix + own count"
 },
 "C45": {
  "note": "missing or false of the code: numbers from 2^31 on"
 },
 "C46": {
  "note": "missing or false of the code: elements other than global ones only have the balance"
 },
 "C47": {
  "note": "missing or false of the code: with serOffset, and for default and special values of short variable length fields, it is refuted"
 },
 "C49": {
  "note": "missing or false of the code: floats; numbers at the ends of the 64 bit domain are UB (refuted)"
 },
 "C50": {
  "note": "missing or false of the code: 64 bit signed ranges with negative bounds, deprecated old ranges and bounds outside the C++ type are refuted; merged ranges some of which are not in any supported version"
 },
 "C51": {
  "note": "missing or false of the code: bitLength 0"
 },
 "C53": {
  "note": "missing or false of the code: map entries of special values outside the supported versions and clashing names are refuted"
 },
 "C54": {
  "note": "missing or false of the code: interface (%) references, comparison of a reference text with a set; existence of fields that are not optional in the generated code, wrapped numbers, unescaped quotes are refuted"
 },
 "C55": {
  "note": "missing or false of the code: uniqueness of special values against a reused field and range bounds against the type are refuted; the function of std::stod itself is a parameter"
 },
 "C56": {
  "note": "missing or false of the code: refresh(): first range that is empty, too wide for the type or of no supported version; quotation marks in display names are refuted"
 },
 "C57": {
  "note": "missing or false of the code: false for empty arguments, missing values and forced versions that are no number (refuted); help text, quiet/debug/warning settings, other tools' options, opening files"
 },
 "C58": {
  "note": "missing or false of the code: false for the id 2^63, for an index of an id with one message next to shared ids, for names that coincide after joining (refuted); message bundles of the command line; ids listed from an enum field; the class around the functions"
 },
 "C59": {
  "note": "missing or false of the code: false for the greatest value 2^63-1 of unsigned 64-bit types, for types of variable length and for keywords (refuted); descriptions and display names with backslashes are excluded; enums whose values come from the generated MsgId are not modelled"
 },
 "C60": {
  "note": "missing or false of the code: signed 64-bit numbers and uintvar numbers from 2^63 on are excluded (refuted for int64); the array may name enumerators which a forced version leaves out (refuted)"
 },
 "C61": {
  "note": "missing or false of the code: display names with quotes, backslashes or newlines; uintvar shorter than 8 bytes with numbers from 2^63 on; the searched array needs all enumerators (refuted for forced versions); a reuse which forbids repeated numbers afterwards (refuted)"
 },
 "C62": {
  "note": "missing or false of the code: which of several bits of one index gives the default (refuted: one which does not exist any more may); reserved values of the same index must agree; uintvar sets get 10 bytes (refuted); versions: C63"
 },
 "C63": {
  "note": "missing or false of the code: nested versions of one index, a later name of a bit of all versions, reserved bits of some versions only, bits gone before the first supported version with another reserved value (the first, second and last are refuted); indices from 64 on (refuted: undefined shift)"
 },
 "C64": {
  "note": "missing or false of the code: indices from 64 on, which type uintvar allows (refuted); display names with quotes (refuted); the macro call of a field without bits"
 },
 "C65": {
  "note": "missing or false of the code: messages and interfaces of namespaces inside others are not marked by default (refuted); contents of the files written; fields marked through messages"
 },
 "C66": {
  "note": "missing or false of the code: lookup of an interface by the empty text; the asserts before the lookups (a text without the expected form)"
 },
 "C67": {
  "note": "missing or false of the code: custom checksum layers with only checksumFrom and checksums in front of the payload with only from (refuted); layers of equal names"
 },
 "C68": {
  "note": "missing or false of the code: an alias of an inner field in a message with reuse may lead nowhere; aliases of inner fields are lost when a bundle is reused; a reused or copied alias may have the name of a field (all three refuted)"
 },
 "C69": {
  "note": "missing or false of the code: texts with quotes or backslashes are written unescaped, a list of which no value exists any more and an empty data value give an empty array: refuted"
 },
 "C70": {
  "note": "missing or false of the code: a list whose termination suffix is another member stops the generator with an error, which is not modelled"
 },
 "C71": {
  "note": "missing or false of the code: element lengths run into an assertion, prefixes narrower than their C++ type get numbers they cannot carry: refuted. The refresh theorems for lists take one such property at a time; a list with a detached termination field (the generator fails) and numbers which are not plain ints are not covered"
 },
 "C72": {
  "note": "missing or false of the code: the functions of the COMMS base classes are given their documented meaning (reading a range of members); names of members are assumed distinct in the code (C37 shows they may clash); the value of the condition of a message for being read is a parameter; code injected by the user is not modelled"
 },
 "C73": {
  "note": "missing or false of the code: conditions outside `supported_cond` (see C54), conditions over interface fields and injected code"
 },
 "C74": {
  "note": "missing or false of the code: Read code injected by the user; keys of different lengths may share a number (C74_distinct_partial); commsIsVersionDependent and the customisation scope of a member are parameters."
 },
 "C75": {
  "note": "missing or false of the code: Frames C67 does not cover; the texts of fields, documentation and options are parameters; layers with equal class names (refuted)."
 },
 "C76": {
  "note": "missing or false of the code: Parts on members of bundles and other nested fields, on texts, on two fields, on lengths and on existence (accepted, see the refuted theorems); injected code."
 },
 "C77": {
  "note": "missing or false of the code: Parts on members of bundles, on texts, lengths and existence, and comparison of two fields (refuted: the type named in the cast does not exist)."
 }
}