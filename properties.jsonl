{"id": "C01", "title": "Every token is handled in finite time", "statement": "Feeding any token to a parser in any state finishes: the mutual recursion between parsers and the dispatcher (array -> element, end of child -> parent, union end -> parent end) never loops.", "quantifier": "every parser declaration, every parser state, every dispatcher stack, every token, every callback behaviour", "why_tests_cant": "A test samples a few documents; the recursion is driven by the stack contents and by stale parser state, which are unbounded.", "anchors": ["library/sjparser/internals/token_parser.cpp:TokenParser::endParsing", "library/sjparser/internals/dispatcher.cpp:Dispatcher::popParser", "library/sjparser/union.h:Union::childParsed", "library/sjparser/internals/array_parser.cpp:ArrayParser::on"]}
{"id": "C02", "title": "No input can make the library dereference a null or dangling dispatcher", "statement": "For any parser declaration in which no Union/SUnion is the direct element parser of an Array/SArray, no token sequence (valid JSON or not), callback behaviour or earlier failed parse can make a parser use a null or dangling dispatcher pointer. With a Union as an array element the property is false: the document '[1' crashes a fresh parser.", "quantifier": "every such declaration, every sequence of tokens and of parse attempts, every callback behaviour", "why_tests_cant": "Memory-safety of a pointer that is only set lazily depends on the whole history of tokens.", "anchors": ["library/sjparser/internals/array_parser.cpp:ArrayParser::on", "library/sjparser/internals/key_value_parser.h:KeyValueParser::onMember", "library/sjparser/union.h:Union::on", "library/sjparser/internals/token_parser.cpp:TokenParser::on(NullT)"]}
{"id": "C03", "title": "Parsing a supported document gives exactly the declared result", "statement": "For every constructible declaration and every JSON document in the supported class, parsing the document and finishing either succeeds with an empty dispatcher stack, with isSet/isEmpty/get/currentMemberId of every declared parser and with the sequence of callback invocations exactly as given by a small recursive specification over the JSON tree, or fails with exactly the error the specification gives, after exactly the specified callbacks.", "quantifier": "every declaration (all parser kinds, arbitrary nesting), every document in the supported class, every callback behaviour (results, exceptions, pops)", "why_tests_cant": "Unbounded nesting of parser kinds and documents; tests fix a handful of shapes.", "anchors": ["library/sjparser/internals/dispatcher.cpp", "library/sjparser/value.cpp", "library/sjparser/internals/array_parser.cpp", "library/sjparser/array.h", "library/sjparser/s_array.h", "library/sjparser/map.h", "library/sjparser/s_map.h", "library/sjparser/object.h", "library/sjparser/s_auto_object.h", "library/sjparser/s_custom_object.h", "library/sjparser/union.h", "library/sjparser/s_union.h"]}
{"id": "C04", "title": "Stored values round-trip", "statement": "For a storing declaration built from Value, SArray, SMap, SAutoObject and standalone SUnion, without callbacks or with callbacks that only look (return true, pop nothing), serialising any well-typed value to JSON and parsing it makes get() return exactly that value.", "quantifier": "every such declaration, every well-typed value of any size and depth", "why_tests_cant": "All values of recursive types.", "anchors": ["library/sjparser/s_array.h:SArray::get", "library/sjparser/s_auto_object.h:SAutoObject::get", "library/sjparser/s_map.h:SMap::get", "library/sjparser/value.cpp:Value::get"]}
{"id": "C05", "title": "Value accepts exactly scalars of its own type", "statement": "Value<T> accepts a document iff it is a scalar of exactly type T (then isSet, not isEmpty, get() returns it) or null (then unset and empty); every other document is rejected, with no numeric conversions (an integer is not accepted by Value<double>), and the error names the offending token.", "quantifier": "every T, every document, every prior state of the parser", "why_tests_cant": "All scalars and all wrong documents.", "anchors": ["library/sjparser/value.cpp:Value::on", "library/sjparser/internals/token_parser.cpp:TokenParser::on"]}
{"id": "C06", "title": "SArray keeps the elements in document order", "statement": "After a successful parse of an array document by an SArray, get() has exactly the parsed non-null elements in document order; null elements are skipped; an empty array gives an empty, set, isEmpty parser. The callbacks of the elements run in that order, then the array's own callback gets the whole vector and decides. An Array (not storing) accepts the same documents with the same callbacks. (Element callbacks may do anything that depends on their argument only.)", "quantifier": "every element declaration, every array document of any length in the supported class", "why_tests_cant": "All lengths and element shapes.", "anchors": ["library/sjparser/s_array.h:SArray::childParsed", "library/sjparser/internals/array_parser.cpp:ArrayParser::on"]}
{"id": "C07", "title": "null array elements are skipped", "statement": "A null element of an array document is skipped wherever it stands. True for arrays of Value; false for arrays of compound parsers: after the first object/array element a null element pops the array itself, so '[[1],null]' is rejected while '[null,[1]]' is accepted, and the verdict on a document depends on which documents were parsed before.", "quantifier": "every array declaration, every position of null, every history", "why_tests_cant": "The failing positions depend on the history of the element parser.", "anchors": ["library/sjparser/internals/array_parser.cpp:ArrayParser::on(NullT)", "library/sjparser/internals/token_parser.cpp:TokenParser::on(NullT)"]}
{"id": "C08", "title": "SMap keeps the first value of every key", "statement": "After a successful parse by an SMap, get() maps exactly the keys of the document, each to the value of its FIRST occurrence, sorted by key, and a null (or otherwise unset) element value makes the parse fail.", "quantifier": "every element declaration, every object document incl. duplicate keys", "why_tests_cant": "All documents, all duplicate patterns.", "anchors": ["library/sjparser/s_map.h:SMap::childParsed", "library/sjparser/map.h:Map::on"]}
{"id": "C09", "title": "Map element callbacks see every pair once, in order", "statement": "During a successful parse by a Map with an element callback, the callback is invoked exactly once per member of the document, in document order, with the member's key and the parsed value, after the callbacks of the value's own declaration; the finish callback comes last.", "quantifier": "every object document, every callback state", "why_tests_cant": "All documents; order and multiplicity.", "anchors": ["library/sjparser/map.h:Map::childParsed", "library/sjparser/map.h:Map::on"]}
{"id": "C10", "title": "Mandatory members are enforced", "statement": "Object/SCustomObject: a non-empty object document with all values acceptable is accepted iff every member not marked Optional is present with a set value; otherwise the parse fails naming the missing member with the highest index and the parser is left unset. Same for SAutoObject, where an absent Optional member additionally needs a default value.", "quantifier": "every member list, every subset of members present", "why_tests_cant": "2^n subsets of members, arbitrary member parsers.", "anchors": ["library/sjparser/object.h:Object::MemberChecker", "library/sjparser/s_auto_object.h:SAutoObject::ValueSetter", "library/sjparser/s_custom_object.h:SCustomObject::finish"]}
{"id": "C11", "title": "Unknown members: rejected, or skipped without effect", "statement": "With default options a document with an unknown member is rejected. With Reaction::Ignore an unknown member, whatever its (null-free) value, does not change the outcome, the parsed values or the callbacks. It is false when the ignored value contains a nested null: the parser then reads the rest of the ignored value as its own members.", "quantifier": "every declaration, every document, every unknown value of any depth", "why_tests_cant": "All shapes of ignored values.", "anchors": ["library/sjparser/internals/key_value_parser.h:KeyValueParser::onMember", "library/sjparser/internals/ignore.cpp"]}
{"id": "C12", "title": "Member order does not matter", "statement": "For an Object/SAutoObject/SCustomObject (no embedded unions) whose callbacks decide by their argument only, permuting the members of a document with pairwise distinct keys that parses successfully gives the same result, with the members' callbacks invoked in the permuted order and then the same invocation of the object's own callback.", "quantifier": "every declaration, every document, every permutation", "why_tests_cant": "n! permutations.", "anchors": ["library/sjparser/internals/key_value_parser.h:KeyValueParser::onMember", "library/sjparser/s_auto_object.h:SAutoObject::finish"]}
{"id": "C13", "title": "Duplicate members: the last one wins", "statement": "If a key occurs several times in an object document, the member's final state is that of the last occurrence only; leaving out an earlier occurrence changes nothing but that the callbacks for its value are not invoked.", "quantifier": "every declaration, every document with duplicates", "why_tests_cant": "All duplicate patterns and member parsers.", "anchors": ["library/sjparser/internals/key_value_parser.h:KeyValueParser::onMember", "library/sjparser/value.cpp:Value::on", "library/sjparser/internals/array_parser.cpp:ArrayParser::on(ArrayStartT)"]}
{"id": "C14", "title": "Empty objects are accepted, unset, and silent", "statement": "An empty object document is accepted by Object, SAutoObject, SCustomObject and standalone unions, leaves the parser unset and empty, and no finish callback runs - even if mandatory members exist.", "quantifier": "every declaration of these kinds, every callback", "why_tests_cant": "All declarations.", "anchors": ["library/sjparser/object.h:Object::finish", "library/sjparser/s_auto_object.h:SAutoObject::finish", "library/sjparser/s_custom_object.h:SCustomObject::finish", "library/sjparser/union.h:Union::finish", "library/sjparser/s_union.h:SUnion::finish"]}
{"id": "C15", "title": "Optional members and defaults", "statement": "get<n>() returns the parsed value if member n is set, otherwise the default if there is one, otherwise throws; pop<n>() returns the same and unsets the member. The documented 'get throws after pop' is false for members with a default: get<n>() then returns the default.", "quantifier": "every member list, every n, every member state", "why_tests_cant": "All member states including after pops.", "anchors": ["library/sjparser/internals/key_value_parser.h:KeyValueParser::get", "library/sjparser/internals/key_value_parser.h:KeyValueParser::pop"]}
{"id": "C16", "title": "get/pop contract of storing parsers", "statement": "For every storing parser: get() succeeds iff isSet(), does not change the state, and returns the stored value; pop() succeeds iff isSet(), returns the same value and leaves the parser unset so that the next get()/pop() throws; isEmpty() is unchanged by pop; no other parser object of the declaration is affected. A value that a callback pops during parsing (from any parser of the declaration other than a union) stays popped: nothing that the library does for the same token sets that parser again.", "quantifier": "every storing parser in every state; every token, every callback", "why_tests_cant": "All states.", "anchors": ["library/sjparser/value.cpp:Value::pop", "library/sjparser/s_array.h:SArray::pop", "library/sjparser/s_map.h:SMap::pop", "library/sjparser/s_auto_object.h:SAutoObject::pop", "library/sjparser/s_custom_object.h:SCustomObject::pop", "library/sjparser/s_union.h:SUnion::pop"]}
{"id": "C17", "title": "Union selects the member named by the type value", "statement": "A standalone union document {type_member: v, ...rest} with v of the type member's type is parsed by the member whose name equals v (and by no other); currentMemberId() is its index; an unknown v, a first key other than type_member, or a v of another scalar type is an error.", "quantifier": "every union declaration, every document", "why_tests_cant": "All declarations and type values (incl. IEEE equality of double names).", "anchors": ["library/sjparser/union.h:Union::on", "library/sjparser/union.h:Union::currentMemberId", "library/sjparser/union.h:Union::MemberChecker"]}
{"id": "C18", "title": "Embedded union hands the end of the object to its parent", "statement": "When an Object has an embedded union member, members after the type member go to the selected union object, and the single closing brace ends the selected object, the union and the enclosing Object, in this order, exactly once each, with their callbacks in this order.", "quantifier": "every declaration with embedded unions at any depth, every document", "why_tests_cant": "All nestings.", "anchors": ["library/sjparser/union.h:Union::childParsed", "library/sjparser/internals/dispatcher.cpp:Dispatcher::popParser"]}
{"id": "C19", "title": "A successful parse means the document matches the declaration", "statement": "If parse+finish succeed then the document matches the declared structure. Proved on the supported class; false in general: standalone unions accept a bare scalar in place of an object and a nested object in place of the type value, and the two defects cancel, so a document with a member unknown to the declaration is accepted.", "quantifier": "every declaration and document", "why_tests_cant": "Acceptance of a wrong document needs an adversarial combination no test lists.", "anchors": ["library/sjparser/union.h:Union::on", "library/sjparser/internals/token_parser.cpp:TokenParser::on(NullT)"]}
{"id": "C20", "title": "A null union type is rejected or ignored cleanly", "statement": "A null type value leaves an embedded union unset and parsing goes on with the enclosing object. For a standalone union it is false that the rest of the union's object is still handled by the union: {\"type\": null, ...} pops the union and feeds the remaining members to the enclosing parser.", "quantifier": "every union declaration, every document", "why_tests_cant": "Depends on nesting context.", "anchors": ["library/sjparser/union.h:Union", "library/sjparser/internals/token_parser.cpp:TokenParser::on(NullT)"]}
{"id": "C21", "title": "After an error the parser can be used again", "statement": "After ParsingError the parser behaves on the next document like a new one. Proved for declarations without arrays, for any history of successful documents, and with arrays after any document whose arrays were closed when it stopped; false when it stopped inside an array: the error leaves it 'started', a following valid document is rejected and a bare scalar is accepted as an array.", "quantifier": "every declaration, every history of documents and failures, every next document in the supported class", "why_tests_cant": "Unbounded histories.", "anchors": ["library/sjparser/yajl_parser.cpp:YajlParser::parse", "library/sjparser/internals/dispatcher.cpp:Dispatcher::reset", "library/sjparser/internals/array_parser.cpp:ArrayParser::reset"]}
{"id": "C22", "title": "Chunking is invisible", "statement": "Splitting the input text into any chunks passed to consecutive parse() calls gives the same callbacks, values, final state and success/error as passing it in one call.", "quantifier": "every text, every split into chunks (including inside tokens), every declaration, every callback behaviour", "why_tests_cant": "Exponentially many splits.", "anchors": ["library/sjparser/yajl_parser.cpp:YajlParser::parse", "library/sjparser/yajl_parser.h:YajlParser::on"]}
{"id": "C23", "title": "No exception but ParsingError leaves parse()/finish()", "statement": "Whatever a token parser or user callback throws (std::exception or anything else), parse() and finish() throw ParsingError only; sjparserError() is the what() of a std::exception and 'Unknown exception' otherwise.", "quantifier": "every declaration, every callback behaviour, every input", "why_tests_cant": "All exceptions at all points.", "anchors": ["library/sjparser/yajl_parser.h:YajlParser::on", "library/sjparser/yajl_parser.cpp:YajlParser::throwParsingError"]}
{"id": "C24", "title": "finish() accepts only complete documents", "statement": "finish() succeeds iff the underlying parser accepts the text as one complete JSON document, no token was rejected, and every parser that was started has ended (empty dispatcher stack).", "quantifier": "every input and history", "why_tests_cant": "All incomplete prefixes.", "anchors": ["library/sjparser/yajl_parser.cpp:YajlParser::finish", "library/sjparser/yajl_parser.cpp:YajlParser::checkDispatcherStack"]}
{"id": "C25", "title": "Nothing is parsed after a rejected token", "statement": "Once a token is rejected, no further token reaches any parser and no further callback is invoked until the next parse() call, which starts a new document; finish() keeps failing with the same message.", "quantifier": "every input, every point of failure", "why_tests_cant": "All failure points.", "anchors": ["library/sjparser/yajl_parser.h:YajlParser::on", "library/sjparser/yajl_parser.cpp:YajlParser::parse"]}
{"id": "C26", "title": "Error texts do not leak between documents", "statement": "The sjparser error reported for a document never comes from an earlier document: after a failed document, a purely syntactic error in the next one has an empty sjparserError() and what() is the underlying parser's text. That text is made from the bytes given to the failing parse() call; for a failing finish(), from the buffer of the last parse() call (and it is empty if the only error is that a parser has not ended).", "quantifier": "every history of documents", "why_tests_cant": "All histories.", "anchors": ["library/sjparser/yajl_parser.cpp:YajlParser::parse", "library/sjparser/parsing_error.cpp:ParsingError::what"]}
{"id": "C27", "title": "Failing finish() only reads live memory", "statement": "A failing finish() never reads freed memory. True if the buffer of the last parse() call is still alive; false otherwise: parse() keeps the caller's pointer and finish() uses it to render the error text, so parse(std::string temporary) followed by a failing finish() is a use after free.", "quantifier": "every history of parse/finish and buffer lifetimes", "why_tests_cant": "Lifetime interleavings; a test passes by luck.", "anchors": ["library/sjparser/yajl_parser.cpp:YajlParser::throwParsingError", "library/sjparser/yajl_parser.cpp:YajlParser::parse", "library/sjparser/yajl_parser.h:YajlParser::_data"]}
{"id": "C28", "title": "Callbacks run once per parsed entity, children first", "statement": "In a successful parse each declared callback is invoked once for each entity of the document it stands for, in the order in which entities end in the document (children before parents), and never for null entities or empty objects.", "quantifier": "every declaration, document of the supported class, callback state", "why_tests_cant": "All nestings.", "anchors": ["library/sjparser/internals/token_parser.cpp:TokenParser::endParsing", "library/sjparser/value.cpp:Value::finish", "library/sjparser/array.h:Array::finish", "library/sjparser/object.h:Object::finish"]}
{"id": "C29", "title": "A callback returning false stops parsing", "statement": "If a callback returns false (or throws), parsing of the document fails with that error, whatever follows in the document, and no other callback runs.", "quantifier": "every declaration, every document, every callback invocation", "why_tests_cant": "All invocations in all documents.", "anchors": ["library/sjparser/value.cpp:Value::finish", "library/sjparser/map.h:Map::childParsed", "library/sjparser/yajl_parser.h:YajlParser::on"]}
{"id": "C30", "title": "Duplicate member names are rejected at construction", "statement": "Constructing an Object/Union (of any kind) throws iff two members have equal names (IEEE equality for doubles), and the message names the duplicated member of highest index whose name occurs again later.", "quantifier": "every member list of any length and name type", "why_tests_cant": "All lists.", "anchors": ["library/sjparser/internals/key_value_parser.h:KeyValueParser::MemberParser::MemberParser"]}
{"id": "C31", "title": "Moving a parser keeps its member registrations right", "statement": "After move construction or move assignment of an Object/Union, looking up any name finds the new object's own member of that name (never the old object's, never a name of the overwritten object), and union member ids are the member indices.", "quantifier": "every member list, every chain of moves and assignments", "why_tests_cant": "All chains of moves.", "anchors": ["library/sjparser/internals/key_value_parser.h:KeyValueParser::operator=", "library/sjparser/internals/key_value_parser.h:KeyValueParser::MemberParser::registerParsers", "library/sjparser/union.h:Union::setupIdsMap"]}
{"id": "C32", "title": "The dispatcher stack holds only parsers of the declaration", "statement": "Every parser on the dispatcher stack is part of the declared parser tree, and the declaration (names, kinds, options, callbacks) is never changed by parsing.", "quantifier": "every declaration, every token sequence, every callback", "why_tests_cant": "Invariant over unbounded histories.", "anchors": ["library/sjparser/internals/dispatcher.cpp:Dispatcher::pushParser", "library/sjparser/internals/dispatcher.cpp:Dispatcher::reset"]}
{"id": "C33", "title": "A parser tree may be reattached to a new Parser", "statement": "A parser object that was used with a destroyed Parser can be used with a new one. True for declarations without arrays (the new dispatcher is propagated to every member); false with arrays: the element parser keeps the pointer to the destroyed dispatcher and a null element uses it (documents without such nulls parse like with a new object even so, if the arrays had been closed).", "quantifier": "every declaration, every history with the first Parser, every input to the second", "why_tests_cant": "Lifetime bug: tests do not observe it.", "anchors": ["library/sjparser/internals/dispatcher.cpp:Dispatcher::Dispatcher", "library/sjparser/internals/array_parser.h:ArrayParser", "library/sjparser/internals/key_value_parser.h:KeyValueParser::setDispatcher", "library/sjparser/map.h:Map::setDispatcher"]}
{"id": "C34", "title": "finish() is repeatable and a new document can follow", "statement": "After a successful finish(), calling finish() again succeeds and changes nothing, and the next parse() starts a new document from a reset dispatcher.", "quantifier": "every history", "why_tests_cant": "All histories.", "anchors": ["library/sjparser/yajl_parser.cpp:YajlParser::finish", "library/sjparser/yajl_parser.cpp:YajlParser::parse"]}
{"id": "C35", "title": "A failed document leaves the root parser unset", "statement": "If parse() or finish() throws, the root parser is not set (isSet() is false, get() throws), except when its value had been accepted completely before the error (text after the end of the document) or when its own finish callback is what failed. This holds if the root was unset before the document, or if the document begins with a token the root can begin with. It is false otherwise: after a successful document, a document rejected at its first token leaves the old value readable.", "quantifier": "every declaration, every history of parse/finish calls, every text and chunking, every callback behaviour, every point of failure", "why_tests_cant": "The error can strike at any token, inside any nested parser or callback; the flag must be cleared on every path.", "anchors": ["library/sjparser/internals/token_parser.h:endParsing", "library/sjparser/object.h:finish", "library/sjparser/s_auto_object.h:finish", "library/sjparser/union.h:finish", "library/sjparser/s_union.h:finish"]}
{"id": "C36", "title": "From JSON text to values and back", "statement": "With a JSON tokenizer behind parse(): any text that the grammar of JSON gives for a document (64-bit integers, finite doubles, UTF-8 strings; any white space, escapes and notation of numbers), cut into chunks anywhere, gives exactly the specified outcome after any history; values of storing declarations survive being printed as JSON text and parsed, doubles included; a number with fraction or exponent is never taken for an integer nor an integer for a double; and if any text at all is accepted then the grammar gives exactly one JSON document for it, which matches the declaration (on the supported class); text that is not JSON by the grammar is always reported, even where the declaration ignores or delegates what the text says.", "quantifier": "every declaration, document, text, chunking and history", "why_tests_cant": "All texts and all their splits.", "anchors": ["library/sjparser/yajl_parser.cpp:YajlParser::parse", "library/sjparser/yajl_parser.cpp:YajlParser::finish"]}
{"id": "C37", "title": "The depth of the text does not cost stack", "statement": "The dispatcher's stack of parsers never holds more than one parser per nesting level of the declaration, and the calls made for one token are nested at most linearly deep in it, however deeply nested or long the text is and whatever was parsed before (declarations without unions as array elements).", "quantifier": "every declaration, every history of parse/finish calls (failing or not), every token sequence, every callback behaviour", "why_tests_cant": "Hostile input may be arbitrarily deep; a test has one depth.", "anchors": ["library/sjparser/internals/dispatcher.cpp:Dispatcher::pushParser", "library/sjparser/internals/ignore.cpp:Ignore::on", "library/sjparser/internals/key_value_parser.h:KeyValueParser::on"]}
{"id": "C38", "title": "What is stored and told always has the declared types", "statement": "At any moment: get() works exactly if the parser is set, and what it returns is a value of its declaration - an SUnion's variant holds the alternative that currentMemberId() names, below the number of members; an SMap's keys are strictly increasing; an SAutoObject's tuple has one component of the member's type per member. get<n>() returns a value of member n's declaration, and every callback is told arguments of the types it is declared with.", "quantifier": "every declaration that compiles (defaults typed, SUnions non-empty), every use: parse/finish calls with any text, failing or not, pop() on any parser, reattachment to new Parsers, replaced callbacks; every callback behaviour; every point between tokens", "why_tests_cant": "The stored value, the current member id and the set flag are written in different places and on different paths, some of which throw; they must agree after every history.", "anchors": ["library/sjparser/s_union.h:SUnion::finish", "library/sjparser/union.h:Union::on", "library/sjparser/s_auto_object.h:SAutoObject::finish", "library/sjparser/s_map.h:SMap::childParsed", "library/sjparser/internals/key_value_parser.h:KeyValueParser::get"]}
{"id": "C39", "title": "A replaced callback takes effect, and nothing else does", "statement": "After setFinishCallback() or setElementCallback() on any parser of the declaration, the next document gives exactly the outcome of a new parser declared with the new callback there, whatever happened before. The call itself invokes no callback and changes nothing that isSet(), isEmpty(), get() and the other accessors of any parser show.", "quantifier": "every declaration, every parser in it, every new callback (also an empty one), every history, every supported document and chunking", "why_tests_cant": "Where, when and how often it is called is unbounded; a test replaces one callback once.", "anchors": ["library/sjparser/value.cpp:Value::setFinishCallback", "library/sjparser/map.h:Map::setElementCallback", "library/sjparser/object.h:Object::setFinishCallback", "library/sjparser/s_union.h:SUnion::setFinishCallback"]}
{"id": "C40", "title": "Callbacks that only look do not influence parsing", "statement": "If some callbacks only look (return true, pop and assign nothing), then adding them to a declaration, removing or replacing them - also between two parse() calls of one document - changes nothing: every sequence of parse() and finish() calls returns or throws the same, with the same error texts, the other callbacks are invoked the same way, and the accessors show the same afterwards.", "quantifier": "every declaration, every set of onlooking callbacks, every sequence of parse/finish calls with any texts, failing or not, every behaviour of the other callbacks, every state", "why_tests_cant": "Quantifies over all declarations, all texts and all programs around the library.", "anchors": ["library/sjparser/internals/token_parser.cpp:TokenParser::endParsing", "library/sjparser/value.cpp:Value::finish", "library/sjparser/array.h:Array::finish", "library/sjparser/map.h:Map::childParsed", "library/sjparser/object.h:Object::finish", "library/sjparser/s_custom_object.h:SCustomObject::finish", "library/sjparser/union.h:Union::finish"]}
{"id": "C41", "title": "Parts of a document take effect as soon as they have arrived", "statement": "When parse() returns, the callbacks of exactly those values that ended in the text given so far have run, in document order; the values that ended can be read from their parsers, while the arrays and objects that are still open are not set; the remaining text adds its callbacks after these and finish() adds none to a complete document. An unexpected member or value in the text given so far is reported by that parse() call, not later.", "quantifier": "every declaration, every callback behaviour, every history before, every proper beginning of every supported document (and the whole document before finish()), every split into buffers", "why_tests_cant": "A document can be cut after every byte, in any nesting of objects, maps, arrays and unions; tests cut it at a few places.", "anchors": ["library/sjparser/yajl_parser.cpp:YajlParser::parse", "library/sjparser/internals/dispatcher.cpp:Dispatcher::on", "library/sjparser/internals/token_parser.cpp:TokenParser::endParsing", "library/sjparser/union.h:Union::on", "library/sjparser/internals/array_parser.cpp:ArrayParser::on", "library/sjparser/map.h:Map::on"]}
{"id": "C42", "title": "A failed allocation is reported and leaves no trace", "statement": "parse() throws std::runtime_error (\"Can not allocate YAJL handle\") exactly if it begins a new document - after finish() or a ParsingError, not for the first document and not in the middle of one - and the underlying parser cannot be allocated. No callback is called and no parser object changes: the values of the previous document can still be read. If parse() is called again later, it and all following calls return, throw and show exactly what they would if the failed calls had not been made. Only finish() directly after a failed call is fatal (null handle); the header forbids using the Parser then.", "quantifier": "every declaration, every sequence of parse/finish calls with any texts, every pattern of allocation failures, every callback behaviour", "why_tests_cant": "Allocation failures are excluded from the coverage of the tests (LCOV_EXCL_LINE); they can strike at any document of any history.", "anchors": ["library/sjparser/yajl_parser.cpp:YajlParser::resetYajlHandle", "library/sjparser/yajl_parser.cpp:YajlParser::parse", "library/sjparser/yajl_parser.cpp:YajlParser::finish"]}
{"id": "C43", "title": "A value type that throws is reported and never half stored", "statement": "If the copy, move or assignment of a value throws when the library stores it: in SArray and SMap the document fails with the text of that exception, after the callbacks of the elements up to this one and before any other callback; in SAutoObject and SUnion with \"Can not set value: \" and the text (\"unknown exception\" if it is not a std::exception). After any calls, failing or not, no value that get() returns and no value that a callback is given contains a value whose storing threw.", "quantifier": "every declaration, every assignment of exceptions to values, every document, every history of calls, callbacks, pops and new Parsers", "why_tests_cant": "Which value throws, at which element and at which depth, is unbounded; two tests throw once, in the first document.", "anchors": ["library/sjparser/s_array.h:SArray::childParsed", "library/sjparser/s_map.h:SMap::childParsed", "library/sjparser/s_auto_object.h:SAutoObject::ValueSetter", "library/sjparser/s_auto_object.h:SAutoObject::finish", "library/sjparser/s_union.h:SUnion::ValueSetter", "library/sjparser/s_union.h:SUnion::finish"]}
{"id": "C44", "title": "The reply to a document depends on nothing earlier, whatever the text", "statement": "A parser that has been used replies to the next text - of any bytes, JSON or not, matching the declaration or not, complete or not, in any chunks - exactly as a newly constructed parser: the same callbacks are invoked with the same arguments, parsing succeeds or fails at the same place with the same ParsingError (both texts), and afterwards isSet(), isEmpty(), get() and the current union member are the same for all parsers, unless the very first token cannot begin a value of the declaration: then the document fails, no callback is invoked and nothing about the parsers changes.", "quantifier": "every declaration without Ignore and without unions in arrays, every history of successful documents, documents that failed with all arrays closed (any failure if there are no arrays), pops, replaced callbacks and new Parsers, every byte sequence (without nulls unless all arrays have scalar elements), every split into buffers, every callback behaviour that depends on what the API shows", "why_tests_cant": "Left-over state of every parser of the declaration meets every continuation, well-formed or not; tests parse a second document a few times, and only a correct one.", "anchors": ["library/sjparser/yajl_parser.cpp:YajlParser::parse", "library/sjparser/internals/dispatcher.cpp:Dispatcher::reset", "library/sjparser/internals/token_parser.cpp:TokenParser::reset", "library/sjparser/internals/array_parser.cpp:ArrayParser::on", "library/sjparser/map.h:Map::on", "library/sjparser/internals/key_value_parser.h:KeyValueParser::reset", "library/sjparser/union.h:Union::reset"]}
{"id": "C45", "title": "Nothing is invented: every value comes from the text", "statement": "Whatever is parsed, in whatever chunks, with whatever callbacks, exceptions and failures: every value any parser of the declaration returns from get(), and every value, parser content and map key a callback is given, consists of scalars that occur in the text parsed so far (or in default values of the declaration), and the keys of its maps are keys that occur in the text. For a parser that is used again the same holds with the next document alone: no value, element or key of an earlier document is seen.", "quantifier": "every declaration (for the part about earlier documents: those of C44), every sequence of parse(), finish(), pop(), setFinishCallback(), setElementCallback() calls and new Parsers over the same object, every text, every split into buffers, every callback behaviour", "why_tests_cant": "A stale value could be seen only in one state of one parser after one particular failure or cancelled callback; tests compare a few results with expected ones and look at parsers at the end only.", "anchors": ["library/sjparser/value.h:Value::setValue", "library/sjparser/map.h:Map::on", "library/sjparser/map.h:Map::childParsed", "library/sjparser/s_map.h:SMap::childParsed", "library/sjparser/s_array.h:SArray::childParsed", "library/sjparser/s_auto_object.h:SAutoObject::finish", "library/sjparser/s_union.h:SUnion::finish", "library/sjparser/internals/token_parser.cpp:TokenParser::reset"]}
{"id": "C46", "title": "Streaming: what a parser holds does not grow with the text", "statement": "A declaration built from Value, Array, Map, Object, SCustomObject and Union (the classes that do not collect) holds, however long the text, exactly one scalar per Value, one key per Map and one user value per SCustomObject of the declaration, plus, while an unknown member is skipped, at most one mark per level of nesting of the text. When finish() returns, nothing more is held than before the document: after any number of accepted documents exactly what a new parser holds. Only documents that fail or are abandoned while an unknown member is skipped may leave marks behind, at most as many as they were nested.", "quantifier": "every such declaration, every sequence of parse(), finish(), pop(), setFinishCallback(), setElementCallback() calls and new Parsers over the same object, every text of any length, every split into buffers, every callback behaviour, and every moment between two tokens", "why_tests_cant": "Growth shows only in the limit of long texts and many documents; tests parse texts of a few lines and do not measure memory.", "anchors": ["library/sjparser/value.h:Value", "library/sjparser/array.h:Array", "library/sjparser/map.h:Map::on", "library/sjparser/object.h:Object", "library/sjparser/union.h:Union", "library/sjparser/internals/ignore.cpp:Ignore::on", "library/sjparser/internals/ignore.h:Ignore", "library/sjparser/internals/key_value_parser.h:KeyValueParser::reset"]}
{"id": "C47", "title": "Running out of memory is reported and cuts the document short", "statement": "Whatever allocations fail while tokens are handled (copying a string or key, pushing a parser, storing a value, skipping), with std::bad_alloc or whatever the allocator throws: each parse(), finish() and whole document either has exactly the effect it has with enough memory - the same result, the same callbacks, the same state - or it throws ParsingError with the text of that exception (after \"Can not set value: \" in SAutoObject and SUnion), the callbacks have been told the beginning of what they would have been told with enough memory, and the next parse() starts a new document. A document that is accepted is accepted with enough memory, with the same values. Without arrays, unions and Ignore later documents are replied to as by a new parser. Finding: a root Value that was set by an earlier document stays set, with the old value.", "quantifier": "every declaration, every assignment of failures to the allocations of every call in every state, every text, every split into buffers, every callback behaviour, every state of the parsers", "why_tests_cant": "Each allocation of each token of each document may fail, in any combination; no test injects an allocation failure.", "anchors": ["library/sjparser/value.cpp:Value::on", "library/sjparser/internals/array_parser.cpp:ArrayParser::on", "library/sjparser/map.h:Map::on", "library/sjparser/internals/key_value_parser.h:KeyValueParser::onMember", "library/sjparser/union.h:Union::on", "library/sjparser/internals/ignore.cpp:Ignore::on", "library/sjparser/internals/dispatcher.cpp:Dispatcher::pushParser", "library/sjparser/s_array.h:SArray::childParsed", "library/sjparser/s_map.h:SMap::childParsed", "library/sjparser/yajl_parser.cpp:YajlParser::on"]}
{"id": "C48", "title": "Error texts tell the truth", "statement": "Every ParsingError of parse() and finish() has one of these causes, and what its text says holds of the parsers at that moment: no JSON (empty sjparserError()); \"Unexpected token T\": T is the kind of the token of the text that was refused (or the end of an object that an embedded union handed on) and some parser of the declaration does not take such a token; \"Unexpected member N\": N is the key or union type in the text, and an object that does not ignore unknown members (or a union) has no member of that name, or N is the first key of a union whose type member is called otherwise; \"Mandatory member N is not present\": N is a mandatory member of an object (or the current one of a union) and is not set; \"Can not set value: \" and one of: missing mandatory member, optional member without value and default, what storing or an allocation threw; \"Can't get value, parser is unset\": an SArray or SMap whose element has no value; \"(Element) callback returned false\": the callback that was called last returned false; what that callback, the storing of a value or an allocation threw; \"Parsers stack is empty\": no parser waits for a token; \"Dispatcher parsers stack is not empty in the end\": complete JSON, but parsers are still open. There is no other text; \"Can not pop parser, parsers stack is empty\" is never reported.", "quantifier": "every declaration, every document of any bytes, every split into buffers, every earlier history, every callback behaviour, storing exceptions and allocation failures", "why_tests_cant": "A wrong or misleading text shows only for the state that reaches it; the tests compare texts for one or two documents per message.", "anchors": ["library/sjparser/internals/token_parser.cpp:TokenParser::on", "library/sjparser/internals/key_value_parser.h:KeyValueParser::onMember", "library/sjparser/object.h:Object::MemberChecker", "library/sjparser/s_auto_object.h:SAutoObject::ValueSetter", "library/sjparser/union.h:Union::on", "library/sjparser/s_union.h:SUnion::ValueSetter", "library/sjparser/internals/dispatcher.cpp:Dispatcher::popParser", "library/sjparser/internals/dispatcher.h:Dispatcher::on", "library/sjparser/yajl_parser.h:YajlParser::on", "library/sjparser/yajl_parser.cpp:YajlParser::finish"]}
{"id": "C49", "title": "No half-read value can be read", "statement": "Whenever the program gets control, the values still being read are not set, so get(), pop() and isSet() cannot show them. (1) A finish callback is called only when its own parser is set, with exactly the value get() returns (or the parser itself), and when every parser containing it is not set; an element callback of an SMap or Map only when the map and everything around it is not set, with the element just read: what a callback would do at any other moment cannot change anything. (2) Between two parse() calls, and after any error of parse() or finish(), every parser that contains the one being read is not set, and get() or pop() on it throws; the one being read is not set either, unless it is the skipper of ignored members or its value has not begun.", "quantifier": "every declaration, every document of any bytes, every split into buffers and every point between two of them, every earlier history, every callback behaviour, storing exceptions and allocation failures", "why_tests_cant": "A stale set flag at one moment of one nesting is visible only to a callback or a get() at that very moment; the tests look at parsers when the document is over.", "anchors": ["library/sjparser/internals/token_parser.cpp:TokenParser::endParsing", "library/sjparser/internals/token_parser.cpp:TokenParser::reset", "library/sjparser/internals/array_parser.cpp:ArrayParser::on", "library/sjparser/internals/key_value_parser.h:KeyValueParser::onMember", "library/sjparser/map.h:Map::childParsed", "library/sjparser/s_map.h:SMap::childParsed", "library/sjparser/s_array.h:SArray::childParsed", "library/sjparser/union.h:Union::reset", "library/sjparser/internals/dispatcher.cpp:Dispatcher::popParser", "library/sjparser/value.h:Value::get"]}
{"id": "C50", "title": "Declarations can be extended without breaking old documents", "statement": "Let a newer version of a declaration differ from the old one, anywhere in it, by: optional members added at the end of objects (with a default value in an SAutoObject), mandatory members made optional, unknown members ignored instead of rejected, members added at the end of unions. Then every document that the old version accepted is accepted by the new one; the same callbacks are invoked in the same order, with the same values; all parsers show the same values and flags, the added members are unset, and stored tuples have the default values of the added members at the end. (If an object ignored unknown members before, the document must not have used the added name there.) Also, replacing storing parsers by the ones that do not store, where no storing parser needs their value, never rejects an accepted document; and any number of such changes one after the other, of both kinds, never does.", "quantifier": "every pair of an old and a newer declaration of any size, every document accepted by the old one, every split into buffers of both, every earlier history of both parsers, every behaviour of the callbacks that agrees on what corresponds", "why_tests_cant": "The tests have one declaration per document; that an addition at one depth leaves all the other members, indices, callbacks and values alone is a statement about all pairs of declarations.", "anchors": ["library/sjparser/object.h:Object::MemberChecker", "library/sjparser/s_auto_object.h:SAutoObject::ValueSetter", "library/sjparser/s_union.h:SUnion::ValueSetter", "library/sjparser/internals/key_value_parser.h:KeyValueParser::onMember", "library/sjparser/member.h:Member", "library/sjparser/s_array.h:SArray::childParsed", "library/sjparser/s_map.h:SMap::childParsed"]}
{"id": "C51", "title": "Reading takes time linear in the document", "statement": "However a document is built and whatever the callbacks do, the library makes at most (8 d + 1) n + 7 calls of parser functions for a document of n tokens, where d is the nesting depth of the declaration, no matter whether the document is accepted. A JSON text has no more tokens than bytes, so the work is linear in the size of the text and cannot be blown up by nesting, nulls, repeated keys, unknown members or errors. At most that many callbacks are invoked.", "quantifier": "every declaration, every text (accepted or not, also invalid JSON) and split into buffers, every earlier history of the parser, every behaviour of the callbacks, every allocation failure", "why_tests_cant": "A test measures the time of the documents it has; that no document costs more than a fixed multiple of its size is a statement about all of them.", "anchors": ["library/sjparser/internals/dispatcher.cpp:Dispatcher::on", "library/sjparser/internals/dispatcher.cpp:Dispatcher::popParser", "library/sjparser/internals/array_parser.cpp:ArrayParser::on", "library/sjparser/internals/token_parser.cpp:TokenParser::endParsing", "library/sjparser/internals/ignore.cpp:Ignore::on", "library/sjparser/union.h:Union::on", "library/sjparser/internals/key_value_parser.h:KeyValueParser::onMember"]}
{"id": "C52", "title": "A long array is its elements, one by one", "statement": "Parsing the array [r1, ..., rn] with Array{p} does exactly what parsing the documents r1, ..., rn one after the other with a Parser of p does: the same callbacks with the same arguments in the same order, the same error if one of them is rejected; after the beginning of the array has arrived, what its complete elements do has happened and nothing else. The value of an SArray is the list of the values that get() would return after each of the documents. The same holds for the values of a Map. For the program of Readme.md: for any number of records with any data, members in any order, optional integers missing or not, in any JSON text and any buffers, writeObject() is called exactly once per record, in order, with exactly the data of that record.", "quantifier": "every element declaration (nested to any depth), every array and map of supported elements of any length, every text and split into buffers, every earlier history, every behaviour of the callbacks; for Readme.md: every list of records", "why_tests_cant": "The tests have arrays of two or three elements; that no element leaks into a later one, for any declaration and number, is an inductive statement.", "anchors": ["library/sjparser/array.h:Array", "library/sjparser/s_array.h:SArray::childParsed", "library/sjparser/internals/array_parser.cpp:ArrayParser::on", "library/sjparser/map.h:Map::childParsed", "library/sjparser/object.h:Object::finish", "library/sjparser/internals/key_value_parser.h:KeyValueParser::get", "library/sjparser/internals/key_value_parser.h:KeyValueParser::pop", "Readme.md:main"]}
{"id": "C53", "title": "Old programs read new documents", "statement": "Let a document have further members that a declaration does not know, anywhere: in an object, in the objects of arrays, maps and members, among the members of the object selected by a union. If those objects ignore unknown members (Reaction::Ignore), the program has exactly the outcome it has for the document without them: the same callbacks with the same arguments in the same order, the same values and flags in all parsers, the same error if it is rejected. (An object without any members must stay so: an empty object is accepted without its mandatory members, one with an unknown member is not.)", "quantifier": "every declaration of any size and depth, every document, every set of added members with any values at any places in it, every split into buffers of both documents, every earlier history of the parser, every behaviour of the callbacks", "why_tests_cant": "The tests ignore one member of one object; that any number of members at any depths leaves everything else alone is a statement about all pairs of documents.", "anchors": ["library/sjparser/internals/ignore.cpp:Ignore::on", "library/sjparser/internals/key_value_parser.h:KeyValueParser::onMember", "library/sjparser/object.h:Object::finish", "library/sjparser/union.h:Union::childParsed", "library/sjparser/internals/token_parser.cpp:TokenParser::endParsing"]}
{"id": "C54", "title": "The layout of a text does not matter", "statement": "Two JSON texts of the same document - with other white space, other escape sequences for the same characters, other digits for the same numbers (1e2 or 100.0), cut into other buffers - have the same outcome in every respect: callbacks with their arguments, values, flags, the state of the parsers for the next document, or the same error. This needs nothing of the document: it also holds where it is rejected, where callbacks or value types throw, where memory runs out, and for the documents that C03 excludes.", "quantifier": "every pair of JSON texts of the same document, every split into buffers of both, every declaration, every state of the parsers, every behaviour of the callbacks, value types and of memory allocation", "why_tests_cant": "A test has one layout of its document; that no layout makes a difference is a statement about infinitely many texts.", "anchors": ["library/sjparser/yajl_parser.cpp:YajlParser::parse", "library/sjparser/yajl_parser.cpp:YajlParser::finish", "library/sjparser/yajl_parser.cpp:YajlParser::yajlOnInt", "library/sjparser/internals/dispatcher.h:Dispatcher::on"]}
{"id": "C55", "title": "The order in which members are declared does not matter", "statement": "Let two declarations differ only in the order in which the members of objects and unions are declared, anywhere in them, with the names distinct. Then every document that one accepts is accepted by the other; the same callbacks are invoked in the same order and told the same; every parser, found by its name, shows the same value and flags. Only what is an index by declaration depends on the order: the positions in the tuple of an SAutoObject, the index of the variant of an SUnion and of currentMemberId(). Whatever the callbacks do, as long as they accept, the two declarations accept exactly the same documents.", "quantifier": "every pair of declarations of any size and depth that differ in the order of members at any number of places, every document, every split into buffers of both, every earlier history of both parsers, every behaviour of the callbacks that agrees on what corresponds and does not pop", "why_tests_cant": "The tests declare each parser in one order; that no lookup, no default value, no mandatory check and no position of one member depends on the place of the others is a statement about all pairs of declarations and documents.", "anchors": ["library/sjparser/internals/key_value_parser.h:KeyValueParser::onMember", "library/sjparser/object.h:Object::MemberChecker", "library/sjparser/s_auto_object.h:SAutoObject::ValueSetter", "library/sjparser/s_union.h:SUnion::ValueSetter", "library/sjparser/union.h:Union::currentMemberId", "library/sjparser/member.h:Member"]}
{"id": "C56", "title": "A declaration is the sum of its parts", "statement": "Parsing the object {k1: r1, ..., kn: rn} with an object parser does exactly what parsing the documents r1, ..., rn does, one after the other, each with a Parser of the declaration of the member it is for: the same callbacks are invoked with the same arguments in the same order, the first error is the same, and the members' parsers then show what the root parsers of those Parsers show (a later value of a member replaces an earlier one, unknown members are skipped or rejected). Then, and only then, the object itself ends. The type value of an embedded union hands the rest of the object, as a document, to a Parser of the alternative it names; the same holds for a union that stands alone. In the same way an array is its elements that are not null (and an SArray keeps what get() returns after each of them), and a map is its entries, each followed by the element callback. So a parser that works as the root works the same at any place of any declaration.", "quantifier": "every kind of object, union, array and map and every declaration of its members or elements (nested to any depth), every supported document, every text and split into buffers of the whole and of each part, every earlier history of all the Parsers involved, every behaviour of the callbacks", "why_tests_cant": "Tests show particular nestings; that no parser behaves differently because of what it is a part of is a statement about all declarations, documents and callbacks.", "anchors": ["library/sjparser/internals/key_value_parser.h:KeyValueParser::onMember", "library/sjparser/object.h:Object::finish", "library/sjparser/s_auto_object.h:SAutoObject", "library/sjparser/s_custom_object.h:SCustomObject", "library/sjparser/union.h:Union::on", "library/sjparser/internals/array_parser.cpp:ArrayParser::on", "library/sjparser/s_array.h:SArray::childParsed", "library/sjparser/map.h:Map::childParsed", "library/sjparser/s_map.h:SMap::childParsed", "library/sjparser/internals/dispatcher.cpp:Dispatcher::popParser", "library/sjparser/internals/token_parser.cpp:TokenParser::endParsing"]}
{"id": "C57", "title": "A storing parser is the parser that does not store, plus a record", "statement": "An SAutoObject, SCustomObject or SUnion does with every document what an Object or Union with the same members does: the callbacks of the members are invoked in the same order with the same arguments, whatever they do, and the document is rejected with the same error, after the same callbacks. Where the Object or Union is set in the end, the record has one field for each member in the order of declaration (an SUnion: the selected member), which is what get() of the member's parser in the Object returns, or the default value exactly if the member is not set; the callback is told this record. An SAutoObject or SUnion rejects what the Object or Union accepts only if some member has neither a value nor a default value, or the user's type throws while it is stored, and then says 'Can not set value'. Where nothing is set (an empty object, null) nothing is stored and no callback is invoked.", "quantifier": "every declaration of the members (of any number, nested to any depth), every supported document, every text and split into buffers of both, every earlier history of both parsers, every behaviour of the callbacks and of the user's types", "why_tests_cant": "Tests look at particular tuples; that a record never has a value of another member, of another document or a default value in place of a parsed one is a statement about all declarations and documents.", "anchors": ["library/sjparser/s_auto_object.h:SAutoObject::ValueSetter", "library/sjparser/s_auto_object.h:SAutoObject::finish", "library/sjparser/s_custom_object.h:SCustomObject::finish", "library/sjparser/object.h:Object::MemberChecker", "library/sjparser/s_union.h:SUnion::ValueSetter", "library/sjparser/union.h:Union::currentMemberId"]}
