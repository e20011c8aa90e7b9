{
 "claims": [
  {
   "property": "C01",
   "status": "proved",
   "theorems": [
    "C01_token_terminates",
    "C01_calls_terminate"
   ],
   "note": "For every machine state, token and callbacks; recursion depth bounded by 5*stack+6*height+7; lifted to parse()/finish()."
  },
  {
   "property": "C02",
   "status": "proved",
   "theorems": [
    "C02_no_bad_dispatcher",
    "C02_array_of_union_refuted"
   ],
   "note": "Proved for all declarations without Array{Union}; the excluded case is refuted by a witness (finding B5)."
  },
  {
   "property": "C03",
   "status": "proved",
   "theorems": [
    "C03_document_outcome",
    "C03_stack_empty"
   ],
   "note": "Refinement of the executable model to the recursive specification den (Spec.v), from every history, for documents in the supported class; the exclusions of that class are justified by the findings B1-B5."
  },
  {
   "property": "C04",
   "status": "proved",
   "theorems": [
    "C04_round_trip",
    "C04_round_trip_watched"
   ],
   "note": ""
  },
  {
   "property": "C05",
   "status": "proved",
   "theorems": [
    "C05_value_document",
    "C05_value_callback"
   ],
   "note": ""
  },
  {
   "property": "C06",
   "status": "proved",
   "theorems": [
    "C06_array_elements",
    "C06_array_not_storing"
   ],
   "note": ""
  },
  {
   "property": "C07",
   "status": "proved",
   "theorems": [
    "C07_null_skipped_value",
    "C07_null_skipped_refuted"
   ],
   "note": "True part for arrays of Value; the general claim is false: C07_null_skipped_refuted (finding B3)."
  },
  {
   "property": "C08",
   "status": "proved",
   "theorems": [
    "C08_map_values",
    "C08_map_null_fails"
   ],
   "note": ""
  },
  {
   "property": "C09",
   "status": "proved",
   "theorems": [
    "C09_map_callbacks"
   ],
   "note": ""
  },
  {
   "property": "C10",
   "status": "proved",
   "theorems": [
    "C10_mandatory_ok",
    "C10_mandatory_ok_custom",
    "C10_mandatory_missing",
    "C10_auto_object"
   ],
   "note": "The clause \"left unset\" is C35."
  },
  {
   "property": "C11",
   "status": "proved",
   "theorems": [
    "C11_unknown_rejected",
    "C11_unknown_ignored",
    "C11_ignored_values",
    "C11_nested_null_refuted"
   ],
   "note": "On null-free ignored values; false with nested nulls: C11_nested_null_refuted (finding B2)."
  },
  {
   "property": "C12",
   "status": "proved",
   "theorems": [
    "C12_member_order",
    "C12_member_order_same"
   ],
   "note": ""
  },
  {
   "property": "C13",
   "status": "proved",
   "theorems": [
    "C13_last_occurrence",
    "C13_earlier_dropped",
    "C13_earlier_dropped_same"
   ],
   "note": ""
  },
  {
   "property": "C14",
   "status": "proved",
   "theorems": [
    "C14_empty_object"
   ],
   "note": ""
  },
  {
   "property": "C15",
   "status": "proved",
   "theorems": [
    "C15_get_pop",
    "C15_get_after_document",
    "C15_get_after_pop_refuted"
   ],
   "note": "\"get throws after pop\" is refuted for members with a default (finding B7)."
  },
  {
   "property": "C16",
   "status": "proved",
   "theorems": [
    "C16_pop_one",
    "C16_callback_pop",
    "C16_get_pop_contract"
   ],
   "note": "pop() inside callbacks (C16_callback_pop) for declarations without embedded unions and popped parsers other than unions: these may end, and so become set, with the same token after the callback of a member."
  },
  {
   "property": "C17",
   "status": "proved",
   "theorems": [
    "C17_union_selects",
    "C17_union_errors"
   ],
   "note": ""
  },
  {
   "property": "C18",
   "status": "proved",
   "theorems": [
    "C18_embedded_union"
   ],
   "note": ""
  },
  {
   "property": "C19",
   "status": "proved",
   "theorems": [
    "C19_accepted_matches",
    "C19_accepted_iff_matches",
    "C19_unsupported_refuted"
   ],
   "note": "On the supported class, in both directions; refuted outside of it (finding B4)."
  },
  {
   "property": "C20",
   "status": "proved",
   "theorems": [
    "C20_null_member_absent",
    "C20_standalone_null_type_refuted"
   ],
   "note": "For embedded unions; refuted for standalone unions (finding B4)."
  },
  {
   "property": "C21",
   "status": "proved",
   "theorems": [
    "C21_like_new",
    "C21_after_errors",
    "C21_array_error_refuted",
    "C21_after_closed_arrays",
    "C21_after_closed_arrays_json"
   ],
   "note": "For declarations without arrays after any calls; for declarations with arrays after successful supported documents, and after any document at all (accepted or rejected, any text and callbacks) that had closed its arrays when it stopped; refuted for arrays left open by an error (finding B1)."
  },
  {
   "property": "C22",
   "status": "proved",
   "theorems": [
    "C22_chunks"
   ],
   "note": "For every incremental tokenizer whose reaction to a byte depends on its state only; the text rendered by yajl itself is not compared."
  },
  {
   "property": "C23",
   "status": "proved",
   "theorems": [
    "C23_finish_only_parsing_error",
    "C23_no_terminate",
    "C23_only_parsing_error",
    "C23_error_text"
   ],
   "note": ""
  },
  {
   "property": "C24",
   "status": "proved",
   "theorems": [
    "C24_finish_accepts",
    "C24_finish_state"
   ],
   "note": ""
  },
  {
   "property": "C25",
   "status": "proved",
   "theorems": [
    "C25_finish_after_error",
    "C25_rest_ignored",
    "C25_tokens_stop"
   ],
   "note": ""
  },
  {
   "property": "C26",
   "status": "proved",
   "theorems": [
    "C26_finish_error",
    "C26_parse_text",
    "C26_finish_text",
    "C26_document_error",
    "C26_parse_error",
    "C26_what"
   ],
   "note": ""
  },
  {
   "property": "C27",
   "status": "proved",
   "theorems": [
    "C27_live_buffer_safe",
    "C27_freed_buffer_refuted"
   ],
   "note": "With a live buffer; refuted with a freed one (finding B6)."
  },
  {
   "property": "C28",
   "status": "proved",
   "theorems": [
    "C28_callback_order"
   ],
   "note": "On the supported class."
  },
  {
   "property": "C29",
   "status": "proved",
   "theorems": [
    "C29_false_stops"
   ],
   "note": "For every state, text and callbacks."
  },
  {
   "property": "C30",
   "status": "proved",
   "theorems": [
    "C30_constructs_iff",
    "C30_message"
   ],
   "note": ""
  },
  {
   "property": "C31",
   "status": "proved",
   "theorems": [
    "C31_pointers",
    "C31_lookup",
    "C31_keys",
    "C31_union_ids",
    "C31_union_ids_by_value",
    "C31_alias_refuted",
    "C31_array_element",
    "C31_constructor_throws",
    "C31_move_keeps_state",
    "C31_assign_keeps_state",
    "C31_moved_parses"
   ],
   "note": "For every program of constructions, moves and move assignments over objects in memory, members by value or by reference; refuted for one lvalue parser used as two members of a union (finding B9). Move assignment of objects with reference members does not compile and is not modelled; moved-from objects are not read; self-move assignment is excluded."
  },
  {
   "property": "C32",
   "status": "proved",
   "theorems": [
    "C32_stack_in_declaration"
   ],
   "note": ""
  },
  {
   "property": "C33",
   "status": "proved",
   "theorems": [
    "C33_reattached",
    "C33_reattached_safe",
    "C33_array_refuted",
    "C33_arrays_reattached"
   ],
   "note": "For declarations without arrays, from any object state and for any text; with arrays, after any history, for supported documents; refuted with arrays for documents with null elements (finding B8)."
  },
  {
   "property": "C34",
   "status": "proved",
   "theorems": [
    "C34_finish_twice",
    "C34_next_document"
   ],
   "note": "finish() twice assumes that completing a completed text is stable in the underlying parser."
  },
  {
   "property": "C35",
   "status": "proved",
   "theorems": [
    "C35_unset_after_failure",
    "C35_opened",
    "C35_stale_value_refuted",
    "C35_exceptions_occur"
   ],
   "note": "For every declaration, text, chunking, callbacks and earlier calls; refuted for a stale value and a document rejected at its first token (finding B10)."
  },
  {
   "property": "C36",
   "status": "proved",
   "theorems": [
    "C36_text_outcome",
    "C36_accepted_text",
    "C36_not_json_reported",
    "C36_value_round_trip",
    "C36_scalar_text",
    "C36_grammar_text"
   ],
   "note": "For the incremental JSON tokenizer of Json.v (all of JSON, with int64 and binary64 numbers and the UTF-8 check of yajl; it rejects lone surrogates, which yajl accepts), which stands in for yajl. C36_grammar_text: every text of an independent grammar (Grammar.v, RFC 8259, with the byte patterns of UTF-8 in raw strings), not only printed ones. Conversely C36_accepted_text and C36_not_json_reported: exactly the texts of this grammar are accepted by the tokenizer (Grammar2.v), so other text is reported whatever the declaration."
  },
  {
   "property": "C37",
   "status": "proved",
   "theorems": [
    "C37_stack_bound",
    "C37_recursion_bound"
   ],
   "note": "Depth of the calls inside the library; the stack of yajl and the call stack of callbacks are not part of the model."
  },
  {
   "property": "C38",
   "status": "proved",
   "theorems": [
    "C38_shape",
    "C38_at_any_moment",
    "C38_callbacks",
    "C38_member_value"
   ],
   "note": "The user type of an SCustomObject is opaque: any content the callback gives it counts as typed."
  },
  {
   "property": "C39",
   "status": "proved",
   "theorems": [
    "C39_like_declared",
    "C39_declared_result",
    "C39_nothing_else"
   ],
   "note": "Replacing a callback from inside a callback is not modelled."
  },
  {
   "property": "C40",
   "status": "proved",
   "theorems": [
    "C40_same_replies",
    "C40_replaced_anytime"
   ],
   "note": "A callback that assigns the value of an SCustomObject is not an onlooker."
  },
  {
   "property": "C41",
   "status": "proved",
   "theorems": [
    "C41_beginning_outcome",
    "C41_every_beginning",
    "C41_whole_text",
    "C41_no_token",
    "C41_first_callbacks",
    "C41_history_grows"
   ],
   "note": "On beginnings of supported documents, at the granularity of the tokens that the tokenizer reports: a number at the end of the text so far is not complete."
  },
  {
   "property": "C42",
   "status": "proved",
   "theorems": [
    "C42_when",
    "C42_nothing_changed",
    "C42_no_trace",
    "C42_finish_unusable"
   ],
   "note": "Allocation failures of yajl_alloc in parse() and the constructor; std::bad_alloc inside the library while tokens are handled is C47; allocations inside yajl are not modelled."
  },
  {
   "property": "C43",
   "status": "proved",
   "theorems": [
    "C43_array_throws",
    "C43_map_throws",
    "C43_auto_throws",
    "C43_union_throws",
    "C43_kept"
   ],
   "note": "SAutoObject and SUnion: also C10_auto_object, C17_union_selects. Exceptions of constructors while a parser is reset, and containers without the strong guarantee, are not modelled."
  },
  {
   "property": "C44",
   "status": "proved",
   "theorems": [
    "C44_like_new",
    "C44_like_new_json",
    "C44_two_histories",
    "C44_untouched",
    "C44_null_refuted"
   ],
   "note": "Extends C21, which is about supported documents, to any text. Ignore parsers, unions as elements of arrays and nulls in arrays of compound elements are excluded (the latter refuted: C44_null_refuted); C44_like_new_json needs no hypothesis about the text but that."
  },
  {
   "property": "C45",
   "status": "proved",
   "theorems": [
    "C45_made",
    "C45_from_text",
    "C45_document",
    "C45_no_leak",
    "C45_no_leak_json"
   ],
   "note": "What is inside a value of a user type (SCustomObject) is the user's and is not restricted. C45_made allows any set of scalars and keys that includes those of the text and of the default values; C45_from_text is the instance with exactly the text. For a used parser (C45_no_leak) the declarations and texts of C44."
  },
  {
   "property": "C46",
   "status": "proved",
   "theorems": [
    "C46_held",
    "C46_at_any_moment",
    "C46_constant"
   ],
   "note": "Counts scalars, keys, user values and marks, not bytes: a scalar or key is as long as it is in the text. The stack of the Dispatcher is bounded by C37; the buffers of yajl are not modelled."
  },
  {
   "property": "C47",
   "status": "proved",
   "theorems": [
    "C47_parse",
    "C47_finish",
    "C47_document",
    "C47_accepted",
    "C47_next_document",
    "C47_stale_value_refuted"
   ],
   "note": "Not modelled: allocations inside yajl, those that build the text of another exception, and that of the stack of a new Dispatcher (dispatcher.cpp:55). Recovery (C47_next_document) is for declarations without arrays, unions and Ignore; C44 has it for failures outside of arrays. The stale value is C47_stale_value_refuted."
  },
  {
   "property": "C48",
   "status": "proved",
   "theorems": [
    "C48_cause",
    "C48_never_pops_empty"
   ],
   "note": "The causes are listed in Errors.v (cause), in terms of the parsers as the error leaves them; C10, C17 and others say which of several causes is reported. The text of the underlying JSON parser is not modelled."
  },
  {
   "property": "C49",
   "status": "proved",
   "theorems": [
    "C49_callbacks",
    "C49_callbacks_json",
    "C49_between_calls",
    "C49_error",
    "C49_between_calls_json",
    "C49_error_json"
   ],
   "note": "C49_between_calls and C49_error are stated for declarations without an array of unions (no_arr_uni), the finding of C07. values_lead: every value position of the token list is filled; C49_callbacks_json, C49_between_calls_json and C49_error_json discharge it for every text of the JSON tokenizer of Json.v."
  },
  {
   "property": "C50",
   "status": "proved",
   "theorems": [
    "C50_old_documents",
    "C50_strict",
    "C50_accepted",
    "C50_not_storing",
    "C50_versions"
   ],
   "note": "newer and lighter are congruences: the change may be anywhere in the declaration. Stated for the supported documents of C03 (supported for the old declaration; that they are for the new one is proved). A SCustomObject holds what its callback makes of it: R relates what the old and the new program make."
  },
  {
   "property": "C51",
   "status": "proved",
   "theorems": [
    "C51_every_call",
    "C51_calls",
    "C51_callbacks",
    "C51_tokens_json",
    "C51_json"
   ],
   "note": "Counts the recursive calls of the model, one for each call of a parser function of the library (the virtual on(), endParsing, childParsed, popParser, dispatch); c51_every_call shows that no call is missing in the count. The work of one call besides these is bounded by the size of the declaration (reset, member lookup) plus one operation of std::vector or std::map, which are not modelled. The tokens of yajl are counted for the tokenizer of Json.v."
  },
  {
   "property": "C52",
   "status": "proved",
   "theorems": [
    "C52_array",
    "C52_sarray",
    "C52_map",
    "C52_as_they_arrive",
    "C52_readme",
    "C52_readme_text",
    "C52_readme_as_they_arrive"
   ],
   "note": "Array and Map without callbacks of their own (the callbacks of their elements, at any depth, are arbitrary), for the supported documents of C03; SArray for arrays without nulls (they are skipped, C07)."
  },
  {
   "property": "C53",
   "status": "proved",
   "theorems": [
    "C53_new_documents",
    "C53_empty_refuted"
   ],
   "note": "grown relates the documents, following the declaration to find out which objects ignore unknown members (grown_members: the members after the type value of a union are those of the selected member). Stated for the supported documents of C03: the larger one has to be supported (no null inside an ignored value, C11), that the smaller one is then is proved. c53_empty_refuted: the condition on empty objects is needed."
  },
  {
   "property": "C54",
   "status": "proved",
   "theorems": [
    "C54_same_tokens",
    "C54_layout",
    "C54_white_space",
    "C54_compact"
   ],
   "note": "Relative to the tokenizer of Json.v (yajl itself is not part of the repository) and the grammar of Grammar.v; C54_same_tokens is for every tokenizer. observe is everything of a Parser but the saved pointer to the last buffer."
  },
  {
   "property": "C55",
   "status": "proved",
   "theorems": [
    "C55_reordered",
    "C55_same_documents"
   ],
   "note": "Stated for accepted documents: which of several errors of a rejected document is reported does depend on the order (the last declared member that is missing). Callbacks look and do not pop: what pop() of a member by index does in the other program would need its index translated. For the supported documents of C03."
  },
  {
   "property": "C56",
   "status": "proved",
   "theorems": [
    "C56_object",
    "C56_one_member",
    "C56_always",
    "C56_union",
    "C56_array",
    "C56_array_always",
    "C56_map",
    "C56_map_always"
   ],
   "note": "For the supported documents of C03. The end of an object or union is described by end_object and end_union of Spec.v, spelled out in c56_one_member. The alternatives of an embedded union are objects or maps. c56_always, c56_array_always, c56_map_always: with the JSON tokenizer every printable document has such parts, so the hypotheses of c56_object, c56_array and c56_map can always be met (for maps: if the values are not embedded unions)."
  },
  {
   "property": "C57",
   "status": "proved",
   "theorems": [
    "C57_auto_object",
    "C57_custom_object",
    "C57_union"
   ],
   "note": "For the supported documents of C03. The Object and Union have no callback of their own, so that what they show at the end is what the members showed when the object ended; with C56 the same holds at any place of a declaration. SArray and SMap against Array and Map: C06, C08, C52, c56_array, c56_map. An SCustomObject accepts exactly what the Object accepts, up to its own callback."
  }
 ]
}