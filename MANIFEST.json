{
 "claims": [
  {
   "property": "C01",
   "status": "proved",
   "theorems": [
    "C01_valid"
   ],
   "note": "Valid on any pooled iterator against the RFC 8259 grammar."
  },
  {
   "property": "C02",
   "status": "proved",
   "theorems": [
    "C02_readval",
    "C02_same_input",
    "C02_readers",
    "C02_bytes",
    "C02_dirty",
    "C02_dirty_refuted"
   ],
   "note": "For every client program. Readers that return data together with a non-EOF error are covered by C02_dirty (same result or the reader's error); equality is refuted for them."
  },
  {
   "property": "C03",
   "status": "proved",
   "theorems": [
    "C03_safe",
    "C03_readval"
   ],
   "note": "Every client program from every reachable state, every reader; typed decoding too."
  },
  {
   "property": "C04",
   "status": "proved",
   "theorems": [
    "C04_offset_reader",
    "C04_offset_bytes"
   ],
   "note": "Also after failed operations."
  },
  {
   "property": "C05",
   "status": "proved",
   "theorems": [
    "C05_skip"
   ],
   "note": ""
  },
  {
   "property": "C06",
   "status": "proved",
   "theorems": [
    "C06_SkipRaw",
    "C06_ReadRaw",
    "C06_AppendRaw",
    "C06_ReadNumber"
   ],
   "note": ""
  },
  {
   "property": "C07",
   "status": "proved",
   "theorems": [
    "C07_read_sound",
    "C07_read_complete"
   ],
   "note": "ParseFloat is an argument with three stated laws."
  },
  {
   "property": "C08",
   "status": "proved",
   "theorems": [
    "C08_read_skip",
    "C08_skip_read",
    "C08_useNumber"
   ],
   "note": ""
  },
  {
   "property": "C09",
   "status": "proved",
   "theorems": [
    "C09_string"
   ],
   "note": ""
  },
  {
   "property": "C10",
   "status": "proved",
   "theorems": [
    "C10_uint",
    "C10_uint_overflow",
    "C10_uint8_short",
    "C10_uint8_range",
    "C10_uint8_refuted"
   ],
   "note": "The 8 bit reader stops after three digits: refuted, with the weaker facts that do hold."
  },
  {
   "property": "C11",
   "status": "proved",
   "theorems": [
    "C11_int",
    "C11_int_overflow",
    "C11_int8_refuted"
   ],
   "note": "The 8 bit reader stops after three digits: refuted."
  },
  {
   "property": "C12",
   "status": "proved",
   "theorems": [
    "C12_float"
   ],
   "note": ""
  },
  {
   "property": "C13",
   "status": "proved",
   "theorems": [
    "C13_stack"
   ],
   "note": ""
  },
  {
   "property": "C14",
   "status": "proved",
   "theorems": [
    "C14_bytes",
    "C14_reader",
    "C14_ResetBytes"
   ],
   "note": ""
  },
  {
   "property": "C15",
   "status": "proved",
   "theorems": [
    "C15_array_cb",
    "C15_array_loop",
    "C15_object_cb",
    "C15_object_loop",
    "C15_count",
    "C15_keys"
   ],
   "note": ""
  },
  {
   "property": "C16",
   "status": "proved",
   "theorems": [
    "C16_type",
    "C16_then"
   ],
   "note": ""
  },
  {
   "property": "C17",
   "status": "proved",
   "theorems": [
    "C17_string"
   ],
   "note": ""
  },
  {
   "property": "C18",
   "status": "proved",
   "theorems": [
    "C18_roundtrip",
    "C18_unique"
   ],
   "note": ""
  },
  {
   "property": "C19",
   "status": "proved",
   "theorems": [
    "C19_uint",
    "C19_int"
   ],
   "note": "Int, Uint are Int64, Uint64."
  },
  {
   "property": "C20",
   "status": "proved",
   "theorems": [
    "C20_tree",
    "C20_read_back",
    "C20_valid"
   ],
   "note": "Any state of the streamer, both HTML modes."
  },
  {
   "property": "C21",
   "status": "proved",
   "theorems": [
    "C21_sticky",
    "C21_value"
   ],
   "note": ""
  },
  {
   "property": "C22",
   "status": "proved",
   "theorems": [
    "C22_flush",
    "C22_outcome",
    "C22_unattached"
   ],
   "note": "The writer is any function of its call history with n <= len."
  },
  {
   "property": "C23",
   "status": "proved",
   "theorems": [
    "C23_encoder",
    "C23_stuck"
   ],
   "note": ""
  },
  {
   "property": "C24",
   "status": "proved",
   "theorems": [
    "C24_session",
    "C24_sticky",
    "C24_integer_refuted"
   ],
   "note": "A session of Decode and More calls over any reader, against a specification on the byte stream. An integer target splits 1.5: refuted."
  },
  {
   "property": "C25",
   "status": "proved",
   "theorems": [
    "C25_roundtrip",
    "C25_struct"
   ],
   "note": "For every value that can survive (keeps): valid UTF-8 strings, floats read back by ParseFloat, no pointers to values encoded as null, structs determined by their JSON fields, interface{} values of the types that decoders store."
  },
  {
   "property": "C26",
   "status": "proved",
   "theorems": [
    "C26_unmarshal",
    "C26_reader",
    "C26_reader_fails",
    "C26_fuel",
    "C26_receiver",
    "C26_unsupported",
    "C26_lax",
    "C26_valid",
    "C26_key_refuted",
    "C26_bool_refuted"
   ],
   "note": "Unmarshal accepts exactly the texts and gives exactly the values of a specification over the grammar. Blanks inside quoted booleans and null as a map key are refuted; C26_valid holds for all types without them."
  },
  {
   "property": "C27",
   "status": "proved",
   "theorems": [
    "C27_marshal",
    "C27_value",
    "C27_valid",
    "C27_rawmessage_refuted",
    "C27_textmarshaler_refuted",
    "C27_nilword_refuted",
    "C27_named_pointer_refuted",
    "C27_interface_refuted",
    "C27_key_word_refuted",
    "C27_key_interface_refuted",
    "C27_number_refuted"
   ],
   "note": "For every value with a representation (fits); nil json.RawMessage, nil *encoding.TextMarshaler, structs that are one nil pointer, named pointer types and other interface types with MarshalJSON are refuted."
  },
  {
   "property": "C28",
   "status": "proved",
   "theorems": [
    "C28_struct",
    "C28_accepts",
    "C28_unknown",
    "C28_embedded",
    "C28_quoted",
    "C28_unsupported",
    "C28_unknown_refuted"
   ],
   "note": "The empty struct reports another error than the unknown field: refuted for that error only."
  },
  {
   "property": "C29",
   "status": "proved",
   "theorems": [
    "C29_small",
    "C29_large",
    "C29_one",
    "C29_one_exact",
    "C29_one_refuted",
    "C29_unique"
   ],
   "note": "SimpleFold is an argument with its documented behaviour. The one-field decoder is refuted for keys with long s or Kelvin sign, proved for all others."
  },
  {
   "property": "C30",
   "status": "proved",
   "theorems": [
    "C30_described",
    "C30_names",
    "C30_order",
    "C30_complete",
    "C30_exact",
    "C30_terminates",
    "C30_ambiguous_refuted"
   ],
   "note": "Types are what reflect tells about them; sort.Slice and sort.Sort by their documentation."
  },
  {
   "property": "C31",
   "status": "proved",
   "theorems": [
    "C31_parseTag",
    "C31_contains",
    "C31_contains_refuted",
    "C31_valid"
   ],
   "note": "Option names are not empty; for the empty name, never used by the code, the claim is refuted."
  },
  {
   "property": "C32",
   "status": "proved",
   "theorems": [
    "C32_keeps",
    "C32_pointer",
    "C32_slice",
    "C32_map",
    "C32_interface",
    "C32_eface",
    "C32_eface_pointer"
   ],
   "note": ""
  },
  {
   "property": "C33",
   "status": "proved",
   "theorems": [
    "C33_slice",
    "C33_slice_accepts",
    "C33_array",
    "C33_array_accepts"
   ],
   "note": ""
  },
  {
   "property": "C34",
   "status": "proved",
   "theorems": [
    "C34_grow",
    "C34_sequence",
    "C34_capacity"
   ],
   "note": "Lengths are natural numbers: overflow of int is not modelled."
  },
  {
   "property": "C35",
   "status": "proved",
   "theorems": [
    "C35_dec_complete",
    "C35_dec_published",
    "C35_dec_unmodified",
    "C35_dec_no_race",
    "C35_dec_not_nil",
    "C35_dec_no_deadlock",
    "C35_dec_ends",
    "C35_enc_complete",
    "C35_enc_published",
    "C35_enc_unmodified",
    "C35_enc_no_race",
    "C35_enc_not_nil",
    "C35_enc_no_deadlock",
    "C35_enc_ends"
   ],
   "note": "Executions of any number of goroutines; maps of custom decoders and encoders are given; fairness of the mutex is not modelled."
  },
  {
   "property": "C36",
   "status": "proved",
   "theorems": [
    "C36_finds",
    "C36_unmarshal",
    "C36_spins",
    "C36_ends",
    "C36_value",
    "C36_stores",
    "C36_new",
    "C36_null",
    "C36_null_new",
    "C36_null_pointer",
    "C36_rho_refuted",
    "C36_pointer_refuted",
    "C36_type_refuted",
    "C36_retry_refuted"
   ],
   "note": "Detection is proved for every cycle through the checkpoint interface; cycles elsewhere recurse for ever (refuted). Decoders of variables other than interfaces and pointers are an arbitrary function."
  },
  {
   "property": "C37",
   "status": "proved",
   "theorems": [
    "C37_test",
    "C37_members",
    "C37_string_refuted",
    "C37_struct_refuted",
    "C37_method_refuted",
    "C37_map_refuted"
   ],
   "note": "For the types in tested; the others are refuted."
  },
  {
   "property": "C38",
   "status": "proved",
   "theorems": [
    "C38_location",
    "C38_wrapped",
    "C04_offset_reader",
    "C04_offset_bytes"
   ],
   "note": ""
  },
  {
   "property": "C39",
   "status": "proved",
   "theorems": [
    "C39_corrupt",
    "C39_text",
    "C39_decode",
    "C39_accepts",
    "C39_read",
    "C39_marshal"
   ],
   "note": "The encoder writes the standard base64 text as a JSON string, and reading it gives the bytes."
  },
  {
   "property": "C40",
   "status": "proved",
   "theorems": [
    "C40_float64",
    "C40_float32",
    "C40_form64",
    "C40_form32",
    "C40_reject64",
    "C40_reject32"
   ],
   "note": "AppendFloat is an argument with the documented shape of its result."
  },
  {
   "property": "C41",
   "status": "proved",
   "theorems": [
    "C41_marshal",
    "C41_value",
    "C41_exclusive",
    "C41_unique"
   ],
   "note": "Maps fail at the first entry in iteration order. Panics in user methods are not modelled."
  },
  {
   "property": "C42",
   "status": "proved",
   "theorems": [
    "C42_marshal",
    "C42_represents",
    "C42_fails",
    "C42_custom_refuted"
   ],
   "note": "Links the caches of C35 with the encoders of C27 and C41, without custom ValEncoders; for those of pointer-shaped types the claim is refuted."
  },
  {
   "property": "C43",
   "status": "proved",
   "theorems": [
    "C43_readval",
    "C43_no_panic",
    "C43_unmarshal",
    "C43_reader",
    "C43_again"
   ],
   "note": "Links the cache of C35 with the decoders of C26, without custom ValDecoders and without named pointer types to types with UnmarshalJSON or UnmarshalText."
  },
  {
   "property": "C44",
   "status": "proved",
   "theorems": [
    "C44_apart",
    "C44_input",
    "C44_copy",
    "C44_iterator",
    "C44_streamer",
    "C44_pool",
    "C44_lent",
    "C44_lent_data",
    "C44_slice",
    "C44_tmp",
    "C44_program",
    "C44_unmarshal",
    "C44_unmarshal_reader",
    "C44_stream"
   ],
   "note": "Callers do not write to lent slices and do not use what they have released; a reader writes only the bytes that it delivers."
  },
  {
   "property": "C45",
   "status": "proved",
   "theorems": [
    "C45_decoding",
    "C45_others",
    "C45_iterators",
    "C45_idle_iterators",
    "C45_unmarshal",
    "C45_valid",
    "C45_decoder",
    "C45_encoding",
    "C45_streamers",
    "C45_idle_streamers",
    "C45_marshal",
    "C45_double_release_refuted",
    "C45_location_refuted"
   ],
   "note": "Calls are atomic steps; nobody uses an object after releasing it (a second Release is refuted); readers deliver no data with errors other than EOF."
  },
  {
   "property": "C46",
   "status": "proved",
   "theorems": [
    "C46_value",
    "C46_marshal",
    "C46_calls",
    "C46_encoder",
    "C46_raw_refuted"
   ],
   "note": "The texts that are JSON by themselves (json.Number, json.RawMessage, results of MarshalJSON) are tidy by hypothesis; they are written unescaped (refuted)."
  },
  {
   "property": "C47",
   "status": "proved",
   "theorems": [
    "C47_readval",
    "C47_unmarshal",
    "C47_reader"
   ],
   "note": "Types are what reflect tells about them; decodings that fail are not covered."
  },
  {
   "property": "C48",
   "status": "proved",
   "theorems": [
    "C48_write",
    "C48_stable",
    "C48_utf8_refuted"
   ],
   "note": "Floats read from JSON are finite and read back by hypothesis (float_stable), which is not needed with UseNumber. Without valid UTF-8 the second reading differs: refuted."
  },
  {
   "property": "C49",
   "status": "proved",
   "theorems": [
    "C49_transport"
   ],
   "note": "The writer takes all data; C23 and C46_encoder treat writers that fail."
  },
  {
   "property": "C50",
   "status": "proved",
   "theorems": [
    "C50_readval",
    "C50_unmarshal",
    "C50_reader",
    "C50_self_refuted"
   ],
   "note": "Values are trees: cycles of pointers are C36. A named type that is a pointer to itself is excluded (grounded) and refuted."
  },
  {
   "property": "C51",
   "status": "proved",
   "theorems": [
    "C51_fuel",
    "C51_value",
    "C51_marshal",
    "C51_encoder",
    "C51_cycle_refuted"
   ],
   "note": "Marshal methods of users return (a text or an error); a method called on a nil pointer counts as a hazard. Circular data is excluded (no_cycles) and refuted."
  },
  {
   "property": "C52",
   "status": "proved",
   "theorems": [
    "C52_agrees",
    "C52_readval",
    "C52_unmarshal",
    "C52_reader",
    "C52_unique",
    "C52_typed",
    "C52_atomic",
    "C52_total",
    "C52_restore_refuted"
   ],
   "note": "For iterators over byte slices and over readers that do not return an error together with data. Values are trees: two pointers in one variable do not alias. That the variable is restored is refuted."
  },
  {
   "property": "C53",
   "status": "proved",
   "theorems": [
    "C53_program",
    "C53_typed",
    "C53_skip",
    "C53_read",
    "C53_readval",
    "C53_decoder",
    "C53_more",
    "C53_number_refuted"
   ],
   "note": "Numbers need the byte that follows them (refuted without it). The bytes that are still to arrive come one per call of Read."
  },
  {
   "property": "C54",
   "status": "proved",
   "theorems": [
    "C54_disallow",
    "C54_disallow_accepts",
    "C54_disallow_readval",
    "C54_number",
    "C54_float",
    "C54_case",
    "C54_strict",
    "C54_case_refuted",
    "C54_float_refuted"
   ],
   "note": "For CaseSensitive the claim needs DisallowUnknownFields (refuted without it)."
  },
  {
   "property": "C55",
   "status": "proved",
   "theorems": [
    "C55_read",
    "C55_lasting",
    "C55_results",
    "C55_parts",
    "C55_forget_refuted"
   ],
   "note": "The refuted theorem records that the pool keeps references to results."
  },
  {
   "property": "C56",
   "status": "proved",
   "theorems": [
    "C56_steady",
    "C56_typed",
    "C56_decoder",
    "C56_linear",
    "C56_linear_typed",
    "C56_growth_refuted",
    "C56_shrink_refuted",
    "C56_flag_refuted"
   ],
   "note": "The refuted theorems record that the buffer is not bounded by the raw values read, can become small, and that a failed []byte leaves the capture flag on."
  },
  {
   "property": "C57",
   "status": "proved",
   "theorems": [
    "C57_kinds",
    "C57_calls",
    "C57_read",
    "C57_readval",
    "C57_unmarshal",
    "C57_decoder_refuted"
   ],
   "note": "The refuted theorem records that io.EOF of Decode is ambiguous."
  },
  {
   "property": "C58",
   "status": "proved",
   "theorems": [
    "C58_calls",
    "C58_readval",
    "C58_decode",
    "C58_unmarshal",
    "C58_reader",
    "C58_map_refuted",
    "C58_quoted_refuted"
   ],
   "note": "Claimed for types without maps and quoted booleans; the refuted theorems show that both exceptions are needed."
  },
  {
   "property": "C59",
   "status": "proved",
   "theorems": [
    "C59_unambiguous",
    "C59_alike",
    "C59_readval",
    "C59_unmarshal",
    "C59_reader",
    "C59_value",
    "C59_escapes_refuted",
    "C59_raw_refuted"
   ],
   "note": "Claimed for types that do not get the text itself; the refuted theorems show that the exceptions are needed."
  },
  {
   "property": "C60",
   "status": "proved",
   "theorems": [
    "C60_differ",
    "C60_differ_exact",
    "C60_permutation",
    "C60_unmarshal",
    "C60_reader",
    "C60_accepted",
    "C60_object",
    "C60_object_exact",
    "C60_described",
    "C60_fields",
    "C60_fields_reader",
    "C60_names_refuted",
    "C60_error_refuted"
   ],
   "note": "Equality of values up to the order of map entries; the refuted theorems show that the exceptions are needed."
  },
  {
   "property": "C61",
   "status": "proved",
   "theorems": [
    "C61_marshal",
    "C61_value",
    "C61_shortest",
    "C61_calls",
    "C61_squeeze",
    "C61_unmarshal",
    "C61_inserted_refuted"
   ],
   "note": "For values whose json.RawMessage and MarshalJSON texts are compact; the refuted theorem shows that the proviso is needed."
  },
  {
   "property": "C62",
   "status": "proved",
   "theorems": [
    "C62_unmarshal",
    "C62_reader",
    "C62_refresh",
    "C62_distinct",
    "C62_folded",
    "C62_twice_refuted",
    "C62_text_refuted",
    "C62_json_refuted"
   ],
   "note": "For all types whose struct fields do not overlap, JSON texts in which no field is written twice, and UnmarshalText and UnmarshalJSON methods for which it holds; the refuted theorems show that the last two are needed. C62_refresh is for the types of C60."
  },
  {
   "property": "C63",
   "status": "proved",
   "theorems": [
    "C63_injective",
    "C63_respelled",
    "C63_reordered",
    "C63_bytes_refuted",
    "C63_raw_refuted"
   ],
   "note": "For the values of C25 and the types of C59 and C60; the refuted theorems show what happens outside them."
  },
  {
   "property": "C64",
   "status": "proved",
   "theorems": [
    "C64_unmarshal",
    "C64_reader",
    "C64_members",
    "C64_iface_refuted"
   ],
   "note": "For structs, maps and pointers to them; the refuted theorem shows that interface{} is different."
  },
  {
   "property": "C65",
   "status": "proved",
   "theorems": [
    "C65_skip",
    "C65_exact",
    "C65_texts",
    "C65_decode",
    "C65_later",
    "C65_now",
    "C65_number_refuted"
   ],
   "note": "For all types; the exception for numbers is needed, as the refuted theorem shows."
  }
 ]
}