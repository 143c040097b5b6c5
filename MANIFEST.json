{
 "claims": [
  {
   "property": "C01",
   "status": "proved",
   "theorems": [
    "C01_chunk_invariance",
    "C01_chunk_invariance_bounded"
   ],
   "note": "For every well-formed codec term (Universe.v), every item, schedule and continuation."
  },
  {
   "property": "C02",
   "status": "proved",
   "theorems": [
    "C02_chunk_invariance_eos"
   ],
   "note": "For every well-formed term delimited by the end of the stream."
  },
  {
   "property": "C03",
   "status": "proved",
   "theorems": [
    "C03_buffer_independence"
   ],
   "note": "For every well-formed term and item of its wire format, any buffers."
  },
  {
   "property": "C04",
   "status": "proved",
   "theorems": [
    "C04_round_trip"
   ],
   "note": "For every well-formed term; wire describes the items that survive (inverse map functions, matching sizes)."
  },
  {
   "property": "C05",
   "status": "proved",
   "theorems": [
    "C05_encode",
    "C05_decode",
    "C05_inverse"
   ],
   "note": "All unsigned widths 8..64, both byte orders."
  },
  {
   "property": "C06",
   "status": "proved",
   "theorems": [
    "C06_range_check",
    "C06_accepted"
   ],
   "note": ""
  },
  {
   "property": "C07",
   "status": "proved",
   "theorems": [
    "C07_signed_encode",
    "C07_signed_decode",
    "C07_float_bits"
   ],
   "note": "Floats are modelled by their bit patterns; the conversion between a float and its bits (byteorder, std) is outside the model."
  },
  {
   "property": "C08",
   "status": "proved",
   "theorems": [
    "C08_no_panic",
    "C08_items_and_bounds",
    "C08_announcement_refuted"
   ],
   "note": "For every composition of the decoders of the crate (inductive definition composed in Safe.v, any depth, any history with errors, setters and premature finish). Machine limits: all bytes ever offered and every announced distance plus buffer are at most 2^62-1 for decoders that reserve memory, u64::MAX for the others; a tuple needs the sum of the components requiring_bytes bounds to fit u64."
  },
  {
   "property": "C09",
   "status": "proved",
   "theorems": [
    "C09_no_panic",
    "C09_announcement_refuted",
    "C09_pre_max_refuted"
   ],
   "note": "For every composition of the encoders of the crate (composed_enc in Safe.v). pre_encode over max_bytes is excluded because the claim is false of it: the counter of max_bytes grows over refused items, and after 2^64-1 refused bytes start_encoding overflows it (C09_pre_max_refuted)."
  },
  {
   "property": "C10",
   "status": "proved",
   "theorems": [
    "C10_idle_consumes_nothing",
    "C10_monolithic_refuted"
   ],
   "note": "quiet compositions = every composition in which a monolithic decoder is not visible through combinators that pass decode() on."
  },
  {
   "property": "C11",
   "status": "proved",
   "theorems": [
    "C11_no_item_before_idle"
   ],
   "note": ""
  },
  {
   "property": "C12",
   "status": "proved",
   "theorems": [
    "C12_sound",
    "C12_sound_first",
    "C12_sound_reads"
   ],
   "note": "Any history of successful calls, with arbitrary (also wrong) Eos hints."
  },
  {
   "property": "C13",
   "status": "proved",
   "theorems": [
    "C13_length_delimits",
    "C13_length_budget",
    "C13_length_inner_view"
   ],
   "note": "For every inner decoder meeting the contract, and the budget bound for every inner decoder at all."
  },
  {
   "property": "C14",
   "status": "proved",
   "theorems": [
    "C14_length_check",
    "C14_length_no_item",
    "C14_length_truncated",
    "C14_length_truncated_hungry",
    "C14_prompt_refuted"
   ],
   "note": "The error comes in the call that announces the end without bringing a byte; C14_prompt_refuted shows that it need not come in the call that brings the last bytes."
  },
  {
   "property": "C15",
   "status": "proved",
   "theorems": [
    "C15_length_exact",
    "C15_length_budget",
    "C15_length_short",
    "C15_length_long",
    "C15_length_zero_refuted",
    "C15_long_monolithic_refuted"
   ],
   "note": "Exact, budget and short items for every inner encoder meeting the encoding contract; items that are too long for every covered term that reports lack of room (ereports). Two limits of the code are proved as refutations: length(0) swallows the item, and over a MonolithicEncoder an item that is too long is cut silently."
  },
  {
   "property": "C16",
   "status": "proved",
   "theorems": [
    "C16_max_budget",
    "C16_max_transparent",
    "C16_max_call",
    "C16_max_offered_refuted"
   ],
   "note": ""
  },
  {
   "property": "C17",
   "status": "proved",
   "theorems": [
    "C17_max_fits",
    "C17_max_exceeded"
   ],
   "note": ""
  },
  {
   "property": "C18",
   "status": "proved",
   "theorems": [
    "C18_budget_decoder",
    "C18_budget_encoder",
    "C18_beyond_decoder",
    "C18_beyond_encoder",
    "C18_transparent",
    "C18_resume",
    "C18_resume_to_eos",
    "C18_resume_encoder"
   ],
   "note": ""
  },
  {
   "property": "C19",
   "status": "proved",
   "theorems": [
    "C19_demux",
    "C19_terms"
   ],
   "note": "The segment headers are themselves decoded from the stream by any self-delimiting header decoder."
  },
  {
   "property": "C20",
   "status": "proved",
   "theorems": [
    "C20_tuple2_decoder",
    "C20_tuple2_encoder",
    "C20_tuple3_decoder",
    "C20_tuple3_encoder",
    "C20_tuple4_decoder",
    "C20_tuple4_encoder",
    "C20_tuple5_decoder",
    "C20_tuple5_encoder",
    "C20_tuple6_decoder",
    "C20_tuple6_encoder",
    "C20_tuple7_decoder",
    "C20_tuple7_encoder",
    "C20_tuple8_decoder",
    "C20_tuple8_encoder"
   ],
   "note": "Arities 2 to 8, each over arbitrary components."
  },
  {
   "property": "C21",
   "status": "proved",
   "theorems": [
    "C21_and_then",
    "C21_empty_header"
   ],
   "note": ""
  },
  {
   "property": "C22",
   "status": "proved",
   "theorems": [
    "C22_collectn",
    "C22_rearm",
    "C22_empty_items_refuted"
   ],
   "note": ""
  },
  {
   "property": "C23",
   "status": "proved",
   "theorems": [
    "C23_collect"
   ],
   "note": ""
  },
  {
   "property": "C24",
   "status": "proved",
   "theorems": [
    "C24_collect_truncated",
    "C24_reported",
    "C24_dropped_refuted",
    "C24_refuted"
   ],
   "note": "C24_collect_truncated covers every schedule: reported, waiting, or dropped, and which; C24_reported is the reported case. What one would expect - that truncation is always reported - is false of the code: C24_dropped_refuted is the case of an announcement with an empty buffer, C24_refuted says what becomes of the dropped bytes."
  },
  {
   "property": "C25",
   "status": "proved",
   "theorems": [
    "C25_collect_returns",
    "C25_compositions",
    "C25_flag",
    "C25_terms",
    "C25_empty_items_refuted"
   ],
   "note": "C25_collect_returns: any inner decoder, after any calls including failed ones. C25_compositions: every composition of the crate's decoders in which collect is over items of at least one byte (the flag of steady, justified by C25_flag), after any calls including failed ones. C25_terms: every decoder of the term language (collect nested anywhere) after any successful calls. C25_empty_items_refuted: with items that take no bytes the loop never ends."
  },
  {
   "property": "C26",
   "status": "proved",
   "theorems": [
    "C26_repeat",
    "C26_empty_item_refuted",
    "C26_length_refuted"
   ],
   "note": ""
  },
  {
   "property": "C27",
   "status": "proved",
   "theorems": [
    "C27_omit_no",
    "C27_omit_yes",
    "C27_optional_some",
    "C27_optional_none",
    "C27_round_trip",
    "C27_optional_length_refuted"
   ],
   "note": ""
  },
  {
   "property": "C28",
   "status": "proved",
   "theorems": [
    "C28_peek_is_next",
    "C28_peekable"
   ],
   "note": ""
  },
  {
   "property": "C29",
   "status": "proved",
   "theorems": [
    "C29_maybe_transparent",
    "C29_maybe_started",
    "C29_maybe_call",
    "C29_maybe_no_op",
    "C29_decode_exact_refuted"
   ],
   "note": ""
  },
  {
   "property": "C30",
   "status": "proved",
   "theorems": [
    "C30_map",
    "C30_try_map",
    "C30_map_err_decoder",
    "C30_map_from",
    "C30_try_map_from",
    "C30_map_err_encoder"
   ],
   "note": ""
  },
  {
   "property": "C31",
   "status": "proved",
   "theorems": [
    "C31_pre_encode"
   ],
   "note": ""
  },
  {
   "property": "C32",
   "status": "proved",
   "theorems": [
    "C32_last",
    "C32_refused",
    "C32_exact_refuted",
    "C32_encode_all_refuted"
   ],
   "note": "The buffer in which the pending item ends is not filled further, so the bound on the number of calls counts non-empty buffers."
  },
  {
   "property": "C33",
   "status": "proved",
   "theorems": [
    "C33_padding_encoder",
    "C33_padding_encoder_eos",
    "C33_padding_decoder",
    "C33_padding_rejects"
   ],
   "note": ""
  },
  {
   "property": "C34",
   "status": "proved",
   "theorems": [
    "C34_decoder",
    "C34_chunks",
    "C34_encoder"
   ],
   "note": "Against an independent definition of UTF-8."
  },
  {
   "property": "C35",
   "status": "proved",
   "theorems": [
    "C35_decoder_requiring_bytes"
   ],
   "note": ""
  },
  {
   "property": "C36",
   "status": "proved",
   "theorems": [
    "C36_encoder_requiring_bytes",
    "C36_exact_is_requiring",
    "C36_exact",
    "C36_exact_slice",
    "C36_no_item",
    "C36_no_item_length_refuted",
    "C36_last_refuted",
    "C36_last_pending_refuted"
   ],
   "note": "length(n) without an item reports n; last() does not count its pending item: both refuted with witnesses."
  },
  {
   "property": "C37",
   "status": "proved",
   "theorems": [
    "C37_decode_exact",
    "C37_calls_made"
   ],
   "note": ""
  },
  {
   "property": "C38",
   "status": "proved",
   "theorems": [
    "C38_decode_exact_truncated",
    "C38_decode_exact_short_reads",
    "C38_failing_read"
   ],
   "note": ""
  },
  {
   "property": "C39",
   "status": "proved",
   "theorems": [
    "C39_decode_from_bytes",
    "C39_whole_buffer",
    "C39_complete",
    "C39_trailing"
   ],
   "note": ""
  },
  {
   "property": "C40",
   "status": "proved",
   "theorems": [
    "C40_encode_all",
    "C40_failing_writer",
    "C40_calls_made",
    "C40_padding_refuted"
   ],
   "note": ""
  },
  {
   "property": "C41",
   "status": "proved",
   "theorems": [
    "C41_encode_into_bytes",
    "C41_unbounded",
    "C41_padding",
    "C41_infinite_refuted"
   ],
   "note": ""
  },
  {
   "property": "C42",
   "status": "proved",
   "theorems": [
    "C42_read_buf_fifo",
    "C42_composed"
   ],
   "note": "For every decoder that respects its buffer; C42_composed discharges that for all compositions."
  },
  {
   "property": "C43",
   "status": "proved",
   "theorems": [
    "C43_write_buf_fifo",
    "C43_composed"
   ],
   "note": "Also across the async variant of encode_to_write_buf."
  },
  {
   "property": "C44",
   "status": "proved",
   "theorems": [
    "C44_fill",
    "C44_flush",
    "C44_error",
    "C44_error_flush",
    "C44_queries",
    "C44_error_stale_refuted",
    "C44_execute_io",
    "C44_is_eos",
    "C44_would_block"
   ],
   "note": "\"Error iff an error was returned\" holds for calls that performed I/O; a call with nothing to do keeps the earlier state (C44_error_stale_refuted)."
  },
  {
   "property": "C45",
   "status": "proved",
   "theorems": [
    "C45_poll_fill",
    "C45_poll_flush",
    "C45_ready_would_block_refuted",
    "C45_execute_io_poll",
    "C45_execute_io_same",
    "C45_waker"
   ],
   "note": "Under the contract of the async traits that a ready answer is never WouldBlock; refuted without it."
  },
  {
   "property": "C46",
   "status": "proved",
   "theorems": [
    "C46_in_order",
    "C46_delivers",
    "C46_can_finish"
   ],
   "note": "Any interleaving of the two sides, any transport plan with short transfers, WouldBlock and I/O errors; end of stream only after everything was sent. For self-delimiting, reusable codecs with non-empty encodings."
  },
  {
   "property": "C47",
   "status": "proved",
   "theorems": [
    "C47_decoder",
    "C47_encoder",
    "C47_encoder_error"
   ],
   "note": ""
  },
  {
   "property": "C48",
   "status": "proved",
   "theorems": [
    "C48_encoding_table",
    "C48_decoding_table",
    "C48_encoding_monoid",
    "C48_decoding_monoid",
    "C48_decoding_lower_bound",
    "C48_order",
    "C48_partial_cmp_consistent_refuted",
    "C48_accessors"
   ],
   "note": ""
  },
  {
   "property": "C49",
   "status": "proved",
   "theorems": [
    "C49_eos",
    "C49_back",
    "C49_back_additive"
   ],
   "note": ""
  },
  {
   "property": "C50",
   "status": "proved",
   "theorems": [
    "C50_bytes",
    "C50_utf8",
    "C50_padding",
    "C50_monolithic",
    "C50_repeat",
    "C50_numbers",
    "C50_adapters",
    "C50_pre_encode",
    "C50_length",
    "C50_tuple_refuted",
    "C50_optional_none_refuted"
   ],
   "note": ""
  },
  {
   "property": "C51",
   "status": "proved",
   "theorems": [
    "C51_truncated_output",
    "C51_fits",
    "C51_monolithic_refuted"
   ],
   "note": "For every well-formed term whose parts report (ereports: everything except MonolithicEncoder outside length/pre_encode, and map_err functions that rename UnexpectedEos), after any drain schedule, for every buffer size. MonolithicEncoder reports one call late: refuted."
  },
  {
   "property": "C52",
   "status": "proved",
   "theorems": [
    "C52_truncated_input",
    "C52_announced"
   ],
   "note": ""
  },
  {
   "property": "C53",
   "status": "proved",
   "theorems": [
    "C53_reuse"
   ],
   "note": ""
  },
  {
   "property": "C54",
   "status": "proved",
   "theorems": [
    "C54_reuse",
    "C50_length"
   ],
   "note": "C50_length: a length encoder takes no second item."
  },
  {
   "property": "C55",
   "status": "proved",
   "theorems": [
    "C55_length_prefix",
    "C55_remaining_bytes_refuted",
    "C55_remaining_bytes_u32"
   ],
   "note": "Holds for every inner decoder that does not reserve memory; for RemainingBytesDecoder the property is false of the code and a counterexample is proved."
  },
  {
   "property": "C56",
   "status": "proved",
   "theorems": [
    "C56_primitives",
    "C56_containers",
    "C56_adapters",
    "C56_utf8",
    "C56_tuple_refuted",
    "C56_and_then_refuted",
    "C56_max_refuted",
    "C56_maybe_refuted"
   ],
   "note": ""
  },
  {
   "property": "C57",
   "status": "proved",
   "theorems": [
    "C57_window",
    "C57_decode",
    "C57_encode"
   ],
   "note": ""
  },
  {
   "property": "C58",
   "status": "proved",
   "theorems": [
    "C58_length_decoder",
    "C58_length_encoder",
    "C58_max_decoder",
    "C58_max_encoder"
   ],
   "note": ""
  },
  {
   "property": "C59",
   "status": "proved",
   "theorems": [
    "C59_encode_returns",
    "C59_start_returns",
    "C59_stays_in_buffer",
    "C59_pre_encode_refuted"
   ],
   "note": "Together with fuel_irrelevant_decoder and fuel_irrelevant_encoder (Props_Returns.v), which show that the fuel of the model has no influence on a call that ends."
  },
  {
   "property": "C60",
   "status": "proved",
   "theorems": [
    "C60_writes_the_item",
    "C60_items_in_order",
    "C60_encode_into_bytes",
    "C60_encode_all",
    "C60_one_encoding",
    "C60_covers_wire",
    "C60_length_of_monolithic_refuted",
    "C60_length_of_empty_items_refuted",
    "C60_length_zero_refuted"
   ],
   "note": "For every composition satisfying ewf (Writes.v): length(n) with n > 0 drives only encoders that notice missing room; without that the claim is refuted three times."
  },
  {
   "property": "C61",
   "status": "proved",
   "theorems": [
    "C61_encodes_every_item"
   ],
   "note": "Conditions: able (Writes.v)."
  },
  {
   "property": "C62",
   "status": "proved",
   "theorems": [
    "C62_json_decodes_whole_stream",
    "C62_bincode_decodes_whole_stream",
    "C62_json_round_trip",
    "C62_bincode_round_trip",
    "C62_length_prefixed",
    "C62_json_from_bytes",
    "C62_bincode_from_bytes",
    "C62_json_unserialisable",
    "C62_bincode_unserialisable",
    "C62_trailing_data_refuted",
    "C62_reuse_after_error_refuted"
   ],
   "note": "serde_json and bincode are parameters."
  },
  {
   "property": "C63",
   "status": "proved",
   "theorems": [
    "C63_borrow",
    "C63_borrow_calls",
    "C63_borrow_composed",
    "C63_forwarding"
   ],
   "note": "A reference is a place in a memory with the laws of a variable; C63_borrow_composed is for length, for the other combinators use C80_decoders with C63_borrow."
  },
  {
   "property": "C64",
   "status": "proved",
   "theorems": [
    "C64_decode_exact_resumes",
    "C64_no_byte_lost",
    "C64_items_in_order",
    "C64_encode_all_retry_refuted"
   ],
   "note": "C64_decode_exact_resumes holds for any decoder; C64_no_byte_lost and C64_items_in_order for the codecs of the term language. The last theorem shows that encode_all cannot be resumed."
  },
  {
   "property": "C65",
   "status": "proved",
   "theorems": [
    "C65_no_lookahead",
    "C65_history"
   ],
   "note": ""
  },
  {
   "property": "C66",
   "status": "proved",
   "theorems": [
    "C66_write_only"
   ],
   "note": ""
  },
  {
   "property": "C67",
   "status": "proved",
   "theorems": [
    "C67_bytes_decoder",
    "C67_bytes_decoder_default",
    "C67_collectn",
    "C67_length_encoder"
   ],
   "note": ""
  },
  {
   "property": "C68",
   "status": "proved",
   "theorems": [
    "C68_decode_exact_returns",
    "C68_headless_items_refuted",
    "C68_empty_items_refuted",
    "C68_cut_items_refuted"
   ],
   "note": "the three refuted theorems show that the condition on repeated items is needed; C29_decode_exact_refuted shows that maybe_eos has to be excluded"
  },
  {
   "property": "C69",
   "status": "proved",
   "theorems": [
    "C69_decode_exact",
    "C69_any_buffers",
    "C69_peekable",
    "C69_tuple_refuted",
    "C69_collectn_refuted"
   ],
   "note": "the refuted theorems show that the position of the check matters"
  },
  {
   "property": "C70",
   "status": "proved",
   "theorems": [
    "C70_refused_item",
    "C70_tuple_refuted",
    "C70_pre_encode_refuted"
   ],
   "note": "the refuted theorems delimit the set of encoders"
  },
  {
   "property": "C71",
   "status": "proved",
   "theorems": [
    "C71_takes_all",
    "C71_slice_refuted",
    "C71_length_refuted",
    "C71_maybe_eos_refuted"
   ],
   "note": "the refuted theorems delimit the set of decoders"
  },
  {
   "property": "C72",
   "status": "proved",
   "theorems": [
    "C72_completed",
    "C72_lower_bound",
    "C72_exact_takes_all",
    "C72_end_of_stream_refuted",
    "C72_length_refuted",
    "C72_slice_refuted",
    "C72_monolithic_refuted"
   ],
   "note": "the refuted theorems delimit the set of decoders"
  },
  {
   "property": "C73",
   "status": "proved",
   "theorems": [
    "C73_fills",
    "C73_encode_all",
    "C73_into_bytes",
    "C73_last_refuted",
    "C73_repeat_refuted",
    "C73_slice_refuted",
    "C73_monolithic_refuted"
   ],
   "note": "the refuted theorems delimit the set of encoders"
  },
  {
   "property": "C74",
   "status": "proved",
   "theorems": [
    "C74_prefix_free",
    "C74_one_item",
    "C74_one_sequence",
    "C74_encoder"
   ],
   "note": "Over the codec universe (wf). C74_encoder is about the outputs of encode_into_bytes for codecs whose encoder can be reused."
  },
  {
   "property": "C75",
   "status": "proved",
   "theorems": [
    "C75_same_item",
    "C75_rejected",
    "C75_same_item_whole",
    "C75_rejected_whole",
    "C75_decode_exact",
    "C75_collect_refuted"
   ],
   "note": "Codecs in wf, usable (C52) and faithful; faithful excludes collect, and C75_collect_refuted shows why."
  },
  {
   "property": "C76",
   "status": "proved",
   "theorems": [
    "C76_decode",
    "C76_finish",
    "C76_finish_early",
    "C76_encode",
    "C76_start_idle",
    "C76_start",
    "C76_decode_cause",
    "C76_finish_cause",
    "C76_encode_cause",
    "C76_start_cause",
    "C76_decode_from_bytes",
    "C76_decode_exact",
    "C76_encode_all",
    "C76_encode_into_bytes",
    "C76_documented_refuted"
   ],
   "note": "The tables of Kinds.v say which kinds occur and when, per combinator; the _cause theorems are the short form (encoders without pre_encode, which may return any error of its inner encoder from start_encoding). C76_documented_refuted: kinds returned that the trait documentation does not list."
  },
  {
   "property": "C77",
   "status": "proved",
   "theorems": [
    "C77_decode",
    "C77_decode_from_bytes",
    "C77_decode_exact",
    "C77_encode",
    "C77_encode_into_bytes",
    "C77_round_trip",
    "C77_crate",
    "C77_varint_round_trip",
    "C77_varint_no_panic",
    "C77_varint_no_lookahead",
    "C77_varint_encoder_no_panic"
   ],
   "note": "The contract of a component is decodes/encodes (Spec.v) and dec_safe/enc_safe (Contract.v); speaks/tells (Custom.v) say what a composition reads and writes. The history theorems C08-C11, C42, C43, C55, C59, C65-C67 also cover own components (constructors dcm_own, ecm_own, sq_own). The varint codec is an example written by a user, not code of the crate."
  },
  {
   "property": "C78",
   "status": "proved",
   "theorems": [
    "C78_decode_from_bytes",
    "C78_decode_exact",
    "C78_encode_all",
    "C78_encode_into_bytes",
    "C78_decode_from_bytes_calls",
    "C78_decode_exact_calls",
    "C78_encode_all_calls",
    "C78_encode_into_bytes_calls",
    "C78_item_not_lost"
   ],
   "note": "For arbitrary decoders and encoders; C78_item_not_lost for the codecs of the term language."
  },
  {
   "property": "C79",
   "status": "proved",
   "theorems": [
    "C79_collectn",
    "C79_omit",
    "C79_max_bytes",
    "C79_max_bytes_encoder",
    "C79_padding",
    "C79_set_bytes",
    "C79_unwrap_length",
    "C79_unwrap_peekable",
    "C79_unwrap_maybe_eos",
    "C79_unwrap_slice",
    "C79_unwrap_length_encoder"
   ],
   "note": "For decoders and encoders meeting the contract. max_bytes needs an item that ends the stream, as in C16."
  },
  {
   "property": "C80",
   "status": "proved",
   "theorems": [
    "C80_own",
    "C80_own_encoder",
    "C80_decoders",
    "C80_encoders",
    "C80_run_decoder",
    "C80_run_encoder"
   ],
   "note": ""
  },
  {
   "property": "C81",
   "status": "proved",
   "theorems": [
    "C81_flush_wakes",
    "C81_last_parked",
    "C81_woken_had_parked",
    "C81_later_task_refuted",
    "C81_partial_flush",
    "C81_poll_flush_defers"
   ],
   "note": "The promise of the documentation is refuted where it fails."
  },
  {
   "property": "C82",
   "status": "proved",
   "theorems": [
    "C82_lazy",
    "C82_finite",
    "C82_endless",
    "C82_endless_eos",
    "C82_endless_length",
    "C82_dropped",
    "C82_as_list",
    "C82_refused",
    "C82_refused_loses_bytes_refuted",
    "C82_empty_items_refuted"
   ],
   "note": "C82_as_list: over an iterator that ends, the model is that of Comb.v, so the other theorems about repeat carry over."
  },
  {
   "property": "C83",
   "status": "proved",
   "theorems": [
    "C83_collect",
    "C83_collectn",
    "C83_collect_any",
    "C83_collectn_any",
    "C83_collect_kept",
    "C83_collectn_kept",
    "C83_log_is_silent"
   ],
   "note": "C83_collect and C83_collectn for inner decoders meeting the contract, the others for arbitrary ones."
  },
  {
   "property": "C84",
   "status": "proved",
   "theorems": [
    "C84_map",
    "C84_try_map",
    "C84_map_err",
    "C84_map_err_encoder",
    "C84_map_from",
    "C84_try_map_from",
    "C84_and_then",
    "C84_and_then_call",
    "C84_pure",
    "C84_pure_encoder"
   ],
   "note": "For arbitrary inner codecs; the state of the closure is separate from that of the codecs."
  },
  {
   "property": "C85",
   "status": "proved",
   "theorems": [
    "C85_max_bytes_remaining",
    "C85_max_bytes_monolithic",
    "C85_length_remaining",
    "C85_limit_inside",
    "C85_early_finish_refuted",
    "C85_prefix_refuted",
    "C85_meter_is_silent"
   ],
   "note": "What a call asks for is the specification rem_claim / mono_claim; growth of Vec beyond what is asked for is not modelled."
  },
  {
   "property": "C86",
   "status": "proved",
   "theorems": [
    "C86_map_id",
    "C86_map_map",
    "C86_try_map_total",
    "C86_try_map_try_map",
    "C86_map_err_id",
    "C86_map_err_map_err",
    "C86_map_err_map",
    "C86_map_max_bytes",
    "C86_map_length",
    "C86_map_slice",
    "C86_map_maybe_eos",
    "C86_map_omit",
    "C86_map_peekable",
    "C86_map_collect",
    "C86_map_collectn",
    "C86_map_and_then_header",
    "C86_map_and_then",
    "C86_max_bytes_twice",
    "C86_length_twice",
    "C86_max_bytes_in_length",
    "C86_slice_twice",
    "C86_maybe_eos_twice",
    "C86_peekable_twice",
    "C86_omit_false",
    "C86_tuple_right",
    "C86_tuple_left",
    "C86_and_then_assoc",
    "C86_and_then_assoc_refuted",
    "C86_and_then_premature_refuted",
    "C86_map_from_id",
    "C86_map_from_map_from",
    "C86_try_map_from_total",
    "C86_try_map_from_try_map_from",
    "C86_enc_map_err_id",
    "C86_enc_map_err_map_err",
    "C86_map_from_map_err",
    "C86_map_from_length",
    "C86_map_from_max_bytes",
    "C86_map_from_slice",
    "C86_map_from_optional",
    "C86_map_from_pre_encode",
    "C86_map_from_repeat",
    "C86_map_from_last",
    "C86_map_from_tuple",
    "C86_optional_twice",
    "C86_enc_max_bytes_twice",
    "C86_enc_slice_twice",
    "C86_enc_length_twice",
    "C86_enc_length_twice_refuted",
    "C86_enc_tuple_right",
    "C86_enc_tuple_left",
    "C86_tuple_overflow"
   ],
   "note": "For arbitrary inner codecs; max_bytes and slice twice and and_then need inner codecs that do not report more bytes than they are given (honest, ehonest)."
  },
  {
   "property": "C87",
   "status": "proved",
   "theorems": [
    "C87_decode",
    "C87_encode",
    "C87_exact",
    "C87_decode_safe",
    "C87_encode_safe",
    "C87_length_refuted",
    "C87_max_refuted",
    "C87_slice_refuted",
    "C87_tuple_refuted"
   ],
   "note": "built / ebuilt relate a composition to itself compiled with wrapping arithmetic (Release.v). Primitives other than RemainingBytesDecoder are the same in both, because what they subtract does not underflow."
  },
  {
   "property": "C88",
   "status": "proved",
   "theorems": [
    "C88_tuple",
    "C88_tuple_empty",
    "C88_and_then",
    "C88_collect",
    "C88_collectn",
    "C88_exact_collect_refuted",
    "C88_exact_collectn"
   ],
   "note": "For every decoder meeting the contract parses _ ToEos (which C02 gives for every term delimited by the end of the stream). C88_exact_collect_refuted is the loss through decode_exact."
  },
  {
   "property": "C89",
   "status": "proved",
   "theorems": [
    "C89_once",
    "C89_once_encode",
    "C89_tuple",
    "C89_tuple_encode",
    "C89_and_then",
    "C89_collect",
    "C89_collect_total",
    "C89_collectn",
    "C89_collectn_bytes",
    "C89_collectn_empty_refuted",
    "C89_repeat"
   ],
   "note": "The codec inside is replaced by one that counts the calls it receives and answers as before; the bound is on the counters after the call. C89_tuple covers tuples of any number of components by adding one component at a time. C89_collectn_empty_refuted shows that the bound in bytes needs items of at least one byte."
  },
  {
   "property": "C90",
   "status": "proved",
   "theorems": [
    "C90_map",
    "C90_try_map",
    "C90_map_err",
    "C90_and_then",
    "C90_and_then_retry",
    "C90_map_from",
    "C90_try_map_from",
    "C90_collect",
    "C90_collectn",
    "C90_mono_decoder",
    "C90_mono_encoder",
    "C90_repeat",
    "C90_total",
    "C90_repeat_total",
    "C90_collect_retry_refuted",
    "C90_and_then_split_refuted",
    "C90_repeat_bytes_refuted"
   ],
   "note": "Panics.v models the same methods with closures that may panic, keeping the state at the point of the panic; C90_total says that without panics it is the model of Comb.v and Extend.v. Destructors that run during unwinding are assumed not to touch the codec."
  },
  {
   "property": "C91",
   "status": "proved",
   "theorems": [
    "C91_agree",
    "C91_asks",
    "C91_encoder",
    "C91_default",
    "C91_length_refuted",
    "C91_empty_items_refuted",
    "C91_empty_item_refuted"
   ],
   "note": "told is the composition, its setters (Conf) and its initial states; used is any history of calls that come back. The user's own decoders enter with the same agreement as hypothesis (told_own)."
  },
  {
   "property": "C92",
   "status": "proved",
   "theorems": [
    "C92_delivers",
    "C92_goes_on",
    "C92_failing_read_refuted"
   ],
   "note": "For every pair of codec descriptions (messages, as in C46). C92_delivers has the bound, C92_goes_on the absence of deadlock; willing and legal in Duplex.v say what the connection may do."
  },
  {
   "property": "C93",
   "status": "proved",
   "theorems": [
    "C93_answers",
    "C93_goes_on"
   ],
   "note": "For every pair of codec descriptions; the total of the messages is below 2^64 with a factor of 4 to spare (the bound is the measure)."
  },
  {
   "property": "C94",
   "status": "proved",
   "theorems": [
    "C94_receive",
    "C94_decides",
    "C94_without_refuted"
   ],
   "note": "For every self-delimiting codec description that reports truncation (reports, Trunc.v; see C52). The loop is written out in Receive.v."
  },
  {
   "property": "C95",
   "status": "proved",
   "theorems": [
    "C95_over_calls",
    "C95_infinite",
    "C95_length_refuted"
   ],
   "note": "a potential that equals requiring_bytes where that says a number; the refuted theorem delimits the set of decoders"
  },
  {
   "property": "C96",
   "status": "proved",
   "theorems": [
    "C96_same_bytes",
    "C96_in_memory",
    "C96_relay",
    "C96_every_stream",
    "C96_flag_refuted",
    "C96_map_refuted"
   ],
   "note": "canonical (Relay.v) is the set of formats with one encoding per item; the two refuted theorems show what is outside of it. The relay program is written out in Relay.v."
  },
  {
   "property": "C97",
   "status": "proved",
   "theorems": [
    "C97_follow",
    "C97_follow_sound",
    "C97_converse",
    "C97_converse_sound",
    "C97_agree",
    "C97_tell",
    "C97_told_and_heard"
   ],
   "note": "Protocols are well-founded trees of codec descriptions (Proto.v), self-delimiting and with something to decode; the programs are written out in Proto.v."
  },
  {
   "property": "C98",
   "status": "proved",
   "theorems": [
    "C98_task",
    "C98_decides",
    "C98_hasty_refuted"
   ],
   "note": "The task and the runtime that polls it are written out in Task.v; a connection is modelled by its answers, pending ones included. C98_hasty_refuted is about the variant that returns Pending directly."
  },
  {
   "property": "C99",
   "status": "proved",
   "theorems": [
    "C99_task",
    "C99_delivers"
   ],
   "note": "The task and the runtime that polls it are written out in Task.v; a connection is modelled by its answers, pending ones included."
  },
  {
   "property": "C100",
   "status": "proved",
   "theorems": [
    "C100_no_lost_wakeup",
    "C100_delivers",
    "C100_poll_flush_refuted"
   ],
   "note": "The producer, the runtime and the I/O loop are written out in Producer.v; the runtime polls a task only if it is awake. C100_poll_flush_refuted shows what poll_flush lacks."
  },
  {
   "property": "C101",
   "status": "proved",
   "theorems": [
    "C101_service",
    "C101_serves",
    "C101_spin_refuted"
   ],
   "note": "The service task and the runtime are written out in Service.v. C101_spin_refuted is about the same task without the check of the stream states."
  },
  {
   "property": "C102",
   "status": "proved",
   "theorems": [
    "C102_would_block",
    "C102_otherwise",
    "C102_goes_on",
    "C102_arrived_refuted"
   ],
   "note": "worked (Nap.v) is any history of calls. The latest read is read off the plan of the stream that has been used up."
  },
  {
   "property": "C103",
   "status": "proved",
   "theorems": [
    "C103_asleep",
    "C103_otherwise",
    "C103_ready_refuted"
   ],
   "note": "aworked (Nap.v) is any history of calls; an entry None of the plan is an answer Pending. That a stream which answered Pending wakes the task is the contract of AsyncRead and AsyncWrite."
  },
  {
   "property": "C104",
   "status": "proved",
   "theorems": [
    "C104_server",
    "C104_serves",
    "C104_retry_refuted"
   ],
   "note": "server and answers are in Blocking.v. The answers are values of their Rust types (typed). What is cut of an answer without an encoding is not described."
  }
 ]
}