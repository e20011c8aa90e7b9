notes = {
'C01': ('proved', 'For every machine state, token and callbacks; recursion depth bounded by 5*stack+6*height+7; lifted to parse()/finish().'),
'C02': ('proved', 'Proved for all declarations without Array{Union}; the excluded case is refuted by a witness (finding B5).'),
'C03': ('proved', 'Refinement of the executable model to the recursive specification den (Spec.v), from every history, for documents in the supported class; the exclusions of that class are justified by the findings B1-B5.'),
'C04': ('proved', ''),
'C05': ('proved', ''),
'C06': ('proved', ''),
'C07': ('proved', 'True part for arrays of Value; the general claim is false: C07_null_skipped_refuted (finding B3).'),
'C08': ('proved', ''),
'C09': ('proved', ''),
'C10': ('proved', 'The clause "left unset" is C35.'),
'C11': ('proved', 'On null-free ignored values; false with nested nulls: C11_nested_null_refuted (finding B2).'),
'C12': ('proved', ''),
'C13': ('proved', ''),
'C14': ('proved', ''),
'C15': ('proved', '"get throws after pop" is refuted for members with a default (finding B7).'),
'C16': ('proved', 'pop() inside callbacks (C16_callback_pop) for declarations without embedded unions and popped parsers other than unions: these may end, and so become set, with the same token after the callback of a member.'),
'C17': ('proved', ''),
'C18': ('proved', ''),
'C19': ('proved', 'On the supported class, in both directions; refuted outside of it (finding B4).'),
'C20': ('proved', 'For embedded unions; refuted for standalone unions (finding B4).'),
'C21': ('proved', 'For declarations without arrays after any calls; for declarations with arrays after successful supported documents, and after any document at all (accepted or rejected, any text and callbacks) that had closed its arrays when it stopped; refuted for arrays left open by an error (finding B1).'),
'C22': ('proved', 'For every incremental tokenizer whose reaction to a byte depends on its state only; the text rendered by yajl itself is not compared.'),
'C23': ('proved', ''),
'C24': ('proved', ''),
'C25': ('proved', ''),
'C26': ('proved', ''),
'C27': ('proved', 'With a live buffer; refuted with a freed one (finding B6).'),
'C28': ('proved', 'On the supported class.'),
'C29': ('proved', 'For every state, text and callbacks.'),
'C30': ('proved', ''),
'C31': ('proved', 'For every program of constructions, moves and move assignments over objects in memory, members by value or by reference; refuted for one lvalue parser used as two members of a union (finding B9). Move assignment of objects with reference members does not compile and is not modelled; moved-from objects are not read; self-move assignment is excluded.'),
'C32': ('proved', ''),
'C33': ('proved', 'For declarations without arrays, from any object state and for any text; with arrays, after any history, for supported documents; refuted with arrays for documents with null elements (finding B8).'),
'C34': ('proved', 'finish() twice assumes that completing a completed text is stable in the underlying parser.'),
'C35': ('proved', 'For every declaration, text, chunking, callbacks and earlier calls; refuted for a stale value and a document rejected at its first token (finding B10).'),
'C38': ('proved', 'The user type of an SCustomObject is opaque: any content the callback gives it counts as typed.'),
'C37': ('proved', 'Depth of the calls inside the library; the stack of yajl and the call stack of callbacks are not part of the model.'),
'C36': ('proved', 'For the incremental JSON tokenizer of Json.v (all of JSON, with int64 and binary64 numbers and the UTF-8 check of yajl; it rejects lone surrogates, which yajl accepts), which stands in for yajl. C36_grammar_text: every text of an independent grammar (Grammar.v, RFC 8259, with the byte patterns of UTF-8 in raw strings), not only printed ones. Conversely C36_accepted_text and C36_not_json_reported: exactly the texts of this grammar are accepted by the tokenizer (Grammar2.v), so other text is reported whatever the declaration.'),
'C39': ('proved', 'Replacing a callback from inside a callback is not modelled.'),
'C40': ('proved', 'A callback that assigns the value of an SCustomObject is not an onlooker.'),
'C41': ('proved', 'On beginnings of supported documents, at the granularity of the tokens that the tokenizer reports: a number at the end of the text so far is not complete.'),
'C43': ('proved', 'SAutoObject and SUnion: also C10_auto_object, C17_union_selects. Exceptions of constructors while a parser is reset, and containers without the strong guarantee, are not modelled.'),
'C42': ('proved', 'Allocation failures of yajl_alloc in parse() and the constructor; std::bad_alloc inside the library while tokens are handled is C47; allocations inside yajl are not modelled.'),
'C44': ('proved', 'Extends C21, which is about supported documents, to any text. Ignore parsers, unions as elements of arrays and nulls in arrays of compound elements are excluded (the latter refuted: C44_null_refuted); C44_like_new_json needs no hypothesis about the text but that.'),
'C45': ('proved', 'What is inside a value of a user type (SCustomObject) is the user\'s and is not restricted. C45_made allows any set of scalars and keys that includes those of the text and of the default values; C45_from_text is the instance with exactly the text. For a used parser (C45_no_leak) the declarations and texts of C44.'),
'C46': ('proved', 'Counts scalars, keys, user values and marks, not bytes: a scalar or key is as long as it is in the text. The stack of the Dispatcher is bounded by C37; the buffers of yajl are not modelled.'),
'C47': ('proved', 'Not modelled: allocations inside yajl, those that build the text of another exception, and that of the stack of a new Dispatcher (dispatcher.cpp:55). Recovery (C47_next_document) is for declarations without arrays, unions and Ignore; C44 has it for failures outside of arrays. The stale value is C47_stale_value_refuted.'),
'C48': ('proved', 'The causes are listed in Errors.v (cause), in terms of the parsers as the error leaves them; C10, C17 and others say which of several causes is reported. The text of the underlying JSON parser is not modelled.'),
'C49': ('proved', 'C49_between_calls and C49_error are stated for declarations without an array of unions (no_arr_uni), the finding of C07. values_lead: every value position of the token list is filled; C49_callbacks_json, C49_between_calls_json and C49_error_json discharge it for every text of the JSON tokenizer of Json.v.'),
'C50': ('proved', 'newer and lighter are congruences: the change may be anywhere in the declaration. Stated for the supported documents of C03 (supported for the old declaration; that they are for the new one is proved). A SCustomObject holds what its callback makes of it: R relates what the old and the new program make.'),
'C51': ('proved', 'Counts the recursive calls of the model, one for each call of a parser function of the library (the virtual on(), endParsing, childParsed, popParser, dispatch); c51_every_call shows that no call is missing in the count. The work of one call besides these is bounded by the size of the declaration (reset, member lookup) plus one operation of std::vector or std::map, which are not modelled. The tokens of yajl are counted for the tokenizer of Json.v.'),
'C52': ('proved', 'Array and Map without callbacks of their own (the callbacks of their elements, at any depth, are arbitrary), for the supported documents of C03; SArray for arrays without nulls (they are skipped, C07).'),
'C53': ('proved', 'grown relates the documents, following the declaration to find out which objects ignore unknown members (grown_members: the members after the type value of a union are those of the selected member). Stated for the supported documents of C03: the larger one has to be supported (no null inside an ignored value, C11), that the smaller one is then is proved. c53_empty_refuted: the condition on empty objects is needed.'),
'C54': ('proved', 'Relative to the tokenizer of Json.v (yajl itself is not part of the repository) and the grammar of Grammar.v; C54_same_tokens is for every tokenizer. observe is everything of a Parser but the saved pointer to the last buffer.'),
'C55': ('proved', 'Stated for accepted documents: which of several errors of a rejected document is reported does depend on the order (the last declared member that is missing). Callbacks look and do not pop: what pop() of a member by index does in the other program would need its index translated. For the supported documents of C03.'),
'C56': ('proved', 'For the supported documents of C03. The end of an object or union is described by end_object and end_union of Spec.v, spelled out in c56_one_member. The alternatives of an embedded union are objects or maps. c56_always, c56_array_always, c56_map_always: with the JSON tokenizer every printable document has such parts, so the hypotheses of c56_object, c56_array and c56_map can always be met (for maps: if the values are not embedded unions).'),
'C57': ('proved', 'For the supported documents of C03. The Object and Union have no callback of their own, so that what they show at the end is what the members showed when the object ended; with C56 the same holds at any place of a declaration. SArray and SMap against Array and Map: C06, C08, C52, c56_array, c56_map. An SCustomObject accepts exactly what the Object accepts, up to its own callback.'),
}
