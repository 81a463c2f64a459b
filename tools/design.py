import json,re
s=open('/verif/DESIGN.md').read()
a=s.index('| model file | code'); b=s.index('Recursion that the C++ does')
s=s[:a]+r'''| model file | code (paths under `/repo`) |
|---|---|
| `Base.v` | strings as lists of bytes, `res`, 64 bit wrapping, `std::stoll/stoull/stoul` (via `strtol`), `std::sort`, maps |
| `Common.v`, `Units.v` | `lib/src/parse/parse_common.cpp`: numbers, booleans, endian, trimming, ranges, names, lengths, units |
| `Xml.v` | `lib/src/parse/ParseXmlWrap.cpp`: properties (attributes), child elements, text content, the `parseValidate…` functions, on a tree of elements |
| `Field.v`, `FieldCommon.v` | `lib/src/parse/ParseFieldImpl.cpp`: the record of a field, names, versions, reuse, override, semantic type, reference helpers |
| `IntField.v`, `EnumField.v`, `SetField.v`, `FloatField.v` | `ParseIntFieldImpl.cpp`, `ParseEnumFieldImpl.cpp`, `ParseSetFieldImpl.cpp`, `ParseFloatFieldImpl.cpp`: the complete `parseImpl` (values, specials, valid ranges and their merging, bits, limits) |
| `OptCond.v` | `ParseOptCondImpl.cpp`: expression texts, and/or trees, verification against sibling or interface fields |
| `Composite.v` | `ParseBitfieldFieldImpl.cpp`, `ParseBundleFieldImpl.cpp`, `ParseStringFieldImpl.cpp`, `ParseDataFieldImpl.cpp`, `ParseListFieldImpl.cpp`, `ParseRefFieldImpl.cpp`, `ParseOptionalFieldImpl.cpp`, `ParseVariantFieldImpl.cpp`, `ParseAliasImpl.cpp` and `ParseFieldImpl::parse` tying the knot |
| `Message.v` | `ParseMessageImpl.cpp`, `ParseInterfaceImpl.cpp` |
| `Frame.v` | `ParseFrameImpl.cpp`, `ParseLayerImpl.cpp` and all layer classes |
| `Protocol.v` | `ParseProtocolImpl.cpp`, `ParseSchemaImpl.cpp`, `ParseNamespaceImpl.cpp`: several files, several schemas, namespaces, lookup of references, message ids, platforms |
| `GenUtil.v`, `GenComms.v` | `lib/src/gen/util.cpp`, `comms.cpp` and the version queries of `GenGenerator.cpp`, `GenElem.cpp` … (replace, split, wrap, templates, names, includes, numbers, scopes, namespaces, integer types) |
| `CommsInt.v` | `app/commsdsl2comms/src/CommsIntField.cpp` (options, valid() body, special values, refresh value), the common options of `CommsField.cpp`, `lib/src/gen/GenIntField.cpp`; not the surrounding text templates of the class |
| `CommsEnum.v` | `CommsEnumField.cpp`, `lib/src/gen/GenEnumField.cpp`: the enum class, options, valid() body, names of values; not an enum of message ids whose values are those of the generated MsgId |
| `CommsSet.v`, `CommsBits.v` | `CommsSetField.cpp`: options, reserved bits, valid() body, access macros, bitName() |
| `CommsSeq.v` | `CommsStringField.cpp`, `CommsDataField.cpp`, `CommsListField.cpp`: extent options, base classes, default and valid values |
| `CommsPrefix.v` | `CommsStringField.cpp`, `CommsDataField.cpp`, `CommsListField.cpp`: code for detached length, count and element length prefixes |
| `CommsRead.v` | `CommsMessage.cpp`, `CommsBundleField.cpp`: read, refresh and validity functions of messages and bundles, without code injected by the user |
| `CommsVariant.v` | `CommsVariantField.cpp`, `CommsIntField.cpp`: the read function of variants whose members are told apart by a key |
| `CommsStack.v` | `CommsFrame.cpp`, `CommsLayer.cpp` and the `Comms*Layer.cpp` of the kinds: definitions of layers and of the stack |
| `CommsConstruct.v` | `CommsMessage.cpp`: the default constructor produced from the construct property |
| `GenSelect.v` | `GenGenerator.cpp`, `GenSchema.cpp`, `GenNamespace.cpp`: finding elements by reference, selection of messages and interfaces |
| `GenOrder.v` | `GenFrame.cpp` getCommsOrderOfLayers, `GenLayer.cpp`, `GenChecksumLayer.cpp`, `GenSyncLayer.cpp`, `GenCustomLayer.cpp`: nesting of the layers of a frame |
| `CommsCond.v` | `CommsOptionalField.cpp` and the access strings of the field classes: conditions of optional fields as C++ expressions |
| `CommsFactory.v` | `CommsMsgFactory.cpp`, `CommsDispatch.cpp`, `CommsInputMessages.cpp`, `CommsMsgId.cpp`: creation and dispatch by id, lists of messages, the enumeration of ids |
| `ProgOpts.v` | `lib/src/gen/GenProgramOptions.cpp`, `CommsProgramOptions.cpp` and what `GenGenerator.cpp` makes of the command line |

'''+s[b:]
c=s.index('"How" names the main')
s=s[:c]+r'''"How" names the main technique; the theorems are `C<nn>_…` in the given `Props` file. The last column says
what is missing or false (with a `_refuted` theorem exhibiting the input).

| id | Props | modelled | how it is proved | missing / false of the code |
|---|---|---|---|---|
'''
rows=[
('C01','PTexts','`parseStrToIntMax`','`denotes` (value of the longest literal prefix) is a function; induction on the digits',''),
('C02','PTexts','`parseStrToUnsigned`','exact behaviour: the value mod 2^32','false from 2^32 on'),
('C03','PTexts','`parseIsValidName`, `…RefName`, `…ExternalRefName`','iff with an independent shape',''),
('C04','PTexts','trimming, normalising','characterisation of the result, idempotence',''),
('C05','PTexts','`parseRange`','iff with an independent shape',''),
('C06','PField, PEnum','single-instance rules of every kind of field','`supplied` relation (attribute or child element)','false for defaultValue/reservedValue of sets'),
('C07','PField','versions of every element at every depth','invariant `all` over the tree of fields','false for members of reused fields'),
('C08','PInt, PEnum, PWhole','limits of int/enum fields','two\'s complement values as spec; for every accepted field of a protocol','bitLength 0 shifts by −1'),
('C09','PInt','serOffset','exact when the moved range does not leave 64 bits','false (wraps) otherwise'),
('C10','PInt, PEnum','default values','invariant of the parser, including reuse; text → value',''),
('C11','PInt','specials','map invariants','value uniqueness false with reuse'),
('C12','PInt','merging of valid ranges','membership preserved by each step, induction on the list','false for unsigned 64 bit values ≥ 2^63 and for a range ending at INT64_MAX'),
('C13','PInt','order and disjointness of valid ranges','loop invariant','disjointness false for the same reasons'),
('C14','PInt, PEnum','length/bitLength of int/enum','invariant of the parser incl. reuse',''),
('C15','PEnum','enum values','map invariants','value uniqueness false when the reusing element switches nonUniqueAllowed off'),
('C16','PEnum','set bits','map invariants','index range false for a reusing set in a bitfield'),
('C17','PEnum','set lengths and types','arithmetic','length 0 or >64 bits index the type table out of bounds'),
('C18','PLength','bitfields','sum of the bit lengths','false for replaced members, refs to unlimited fields, no members'),
('C19','PLength','min ≤ max length','structural induction over all kinds of fields',''),
('C20','PLength','lengths bound every serialisation','inductive relation of possible serialised lengths (`LengthSpec`)','false for pseudo fields, availableLengthLimit, wrapped bitfields'),
('C21','PTexts','`parseAddToLength`, `parseMulLength`','arithmetic','factor 0 traps'),
('C22','PField','distinct member names','invariant of the parser, reuse and replace included',''),
('C23','PRefs','conditions refer to existing fields','relation between a condition and the members before it (`RefSpec`), induction over the tree','reused conditions and replaced members are not verified again'),
('C24','PCond','expression texts','text = left ++ op ++ right up to blanks; iff; injectivity',''),
('C25','PFrame','frames','counting and order of layers','false through `<custom>` layers'),
('C26','PFrame','layer names','names are valid','uniqueness false: only reported'),
('C27','PProtocol, PRefs','external references','after any list of files the lookup finds the element; map invariants over namespace trees',''),
('C28','PMerge, PProtocol','merging of namespaces','invariants over the list of files',''),
('C29','PMessages','ids','for each top level namespace','false across namespaces'),
('C30','PMessages','list of all messages','sorted permutation','false: nested namespaces are left out'),
('C31','PPlatforms','platforms','set equations','reuse and several schemas'),
('C32','PHeader, PTexts','dslVersion gates','monotonicity of every gate','acceptance as a whole is not monotone'),
('C33','PHeader','schema properties over several files','induction on the files','contradicting dslVersion is accepted'),
('C34','PGen','version queries of the generator','for all version triples','--force-ver cases'),
('C35','PGen','numbers as C++ literals','C++ literal grammar as spec','INT64_MIN'),
('C36','PTemplate','template processing','loop invariant over the text','unterminated placeholder'),
('C37','PNames','generated names','injectivity of each naming step','collisions exhibited (members, files, member structs)'),
('C38','PGen','include lists','sorted, complete, duplicate free','duplicates that differ in spelling'),
('C39','PGen, PTemplate','wrapping','words preserved','width'),
('C40','PGen','splitting/joining','inverse laws','empty last token, empty separator'),
('C41','PTexts','`parseStrToUintMax`','exact behaviour','negative literals wrap'),
('C42','PAttr','attributes of all kinds of fields','given text / reused field / documented default, per attribute','overrides and float endian are not reused'),
('C43','PAttr','default and valid values of strings/data','bytes as spec; listed values with versions; order',''),
('C44','PAttr','one way to give the extent','invariant of the parser incl. reuse','sibling prefix + own count'),
('C45','PAttr','validateMinLength','invariant of the parser','numbers from 2^31 on'),
('C48','PAttr','keywords','iff with tables of documented keywords',''),
]
extra='/verif/tools/design_rows.json'
import os
if os.path.exists(extra): rows+= [tuple(r) for r in json.load(open(extra))]
rows.sort()
have={json.loads(l)['id'] for l in open('/verif/properties.jsonl')}
assert have=={r[0] for r in rows}, have^{r[0] for r in rows}
for r in rows: s+='| %s | %s | %s | %s | %s |\n'%(r[0],r[1],r[2],r[3],r[4] or '—')
s+='''
No property of the list is "not expressible"; whatever is outside the model (see "Not modelled") has no property.

## Seeded bugs

`tools/mutate.py` copies the development outside `/verif`, edits one definition of the model, rebuilds, replaces
the proofs that break by `Admitted` (only in the scratch copy) and reports which property theorems no longer stand.
The results are in `seeded/LOG.jsonl`.
'''
open('/verif/DESIGN.md','w').write(s)
st=json.load(open('/verif/tools/status.json'))
for r in rows:
    if r[4]: st[r[0]]={**st.get(r[0],{}),'note':'missing or false of the code: '+r[4]}
json.dump(st,open('/verif/tools/status.json','w'),indent=1)
