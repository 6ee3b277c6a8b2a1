{"id": "C01", "title": "Valid accepts exactly RFC 8259 JSON texts", "statement": "Valid(data) returns true if and only if data is a JSON text in the sense of the RFC 8259 grammar (optional whitespace, one value, optional whitespace; no control bytes inside strings, no leading zeros, no trailing commas).", "quantifier": "every finite byte sequence (any bytes, any length, any nesting depth)", "why_tests_cant": "The input space is infinite and nesting is unbounded; a table test only fixes finitely many texts, and nothing stops an untested byte at an untested nesting position from being accepted or rejected wrongly.", "anchors": ["iterator.go:Valid", "iterator_skip.go:Skip,skipWithStack", "iterator_skip_array.go", "iterator_skip_object.go", "iterator_skip_number.go", "iterator_skip_str.go", "decoder_config.go:Valid"]}
{"id": "C02", "title": "Results do not depend on how the reader chunks the input", "statement": "Each read or skip operation on an iterator attached to an io.Reader gives the same value, the same error and the same unread remainder as the operation on the whole byte sequence, however Read splits the bytes, returns zero bytes, or delivers EOF together with the last bytes.", "quantifier": "every input, every sequence of Read return sizes (including 0, nil), both styles of EOF delivery, every buffer size and every starting split between buffered and unread bytes", "why_tests_cant": "The number of ways of splitting an input at refill points is exponential; refill bugs only appear when a boundary falls inside one particular token at one particular loop.", "anchors": ["iterator.go:readMore,nextByte,expectBytes,nextToken", "iterator_str.go", "iterator_skip_*.go", "iterator_int*.go", "iterator_float*.go"]}
{"id": "C03", "title": "No input makes the iterator index out of range or loop forever", "statement": "No operation on an iterator panics with an index or slice bound error, and each one returns, for any input and any reader that makes progress.", "quantifier": "every input, every reader schedule with finitely many (0, nil) reads, every operation", "why_tests_cant": "Absence of panics and of divergence is a universal statement over inputs and schedules; fuzzing only samples it.", "anchors": ["iterator.go", "iterator_str.go", "iterator_skip_*.go", "iterator_read*.go", "stack.go"]}
{"id": "C04", "title": "InputOffset counts the consumed bytes exactly", "statement": "After any sequence of successful operations, InputOffset (offset plus head) equals the number of bytes of the source consumed so far, and the buffered bytes together with the bytes not yet read are exactly the rest of the source.", "quantifier": "every input, every chunking, every sequence of successful operations", "why_tests_cant": "The offset is adjusted at refills only, so an error shows up only for particular alignments of refills with operations; histories are unbounded.", "anchors": ["decoder.go:InputOffset,Buffered", "iterator.go:readMore"]}
{"id": "C05", "title": "Skip consumes exactly one JSON value", "statement": "Skip succeeds exactly when the input, after leading whitespace, starts with a JSON value (numbers taken as the longest match), and then the unread input starts right after that value.", "quantifier": "every input, every chunking, every nesting depth", "why_tests_cant": "Needs the grammar on one side and every input on the other; tests can only fix examples.", "anchors": ["iterator_skip.go", "iterator_skip_array.go", "iterator_skip_object.go", "iterator_skip_number.go", "iterator_skip_str.go"]}
{"id": "C06", "title": "SkipRaw, ReadRaw, AppendRaw and ReadNumber return exactly the bytes of the value", "statement": "On success SkipRaw, ReadRaw and AppendRaw return the byte sequence of the skipped value without leading whitespace, unchanged, even if the value spans many refills, and ReadNumber returns the exact number text.", "quantifier": "every input, every chunking, capture mode already on or off", "why_tests_cant": "Capture mode keeps bytes across refills by moving from overwriting to appending; only certain splits exercise it.", "anchors": ["iterator_raw.go", "iterator_number.go", "iterator.go:readMore"]}
{"id": "C07", "title": "Read returns the value denoted by the text", "statement": "Read on a JSON text returns the value that RFC 8259 gives it: null, booleans, numbers (float64 of the number text, or json.Number with the exact text), decoded strings, arrays in order, objects as maps in which the last occurrence of a key wins.", "quantifier": "every input, every nesting depth, every chunking, UseNumber on or off", "why_tests_cant": "The stack machine of Read interleaves arrays and objects to unbounded depth; a wrong attachment of a child shows up only for particular shapes.", "anchors": ["iterator_read.go", "iterator_read_array.go", "iterator_read_object.go", "node.go"]}
{"id": "C08", "title": "Read and Skip accept the same texts and consume the same bytes", "statement": "Read succeeds whenever Skip succeeds and every number in the value is accepted by ParseFloat (always, with UseNumber), it then stops at the same position, and whenever Read succeeds Skip succeeds.", "quantifier": "every input and every chunking", "why_tests_cant": "Two independently written parsers have to agree on an infinite input space.", "anchors": ["iterator_read.go", "iterator_skip.go", "iterator_str.go", "iterator_float64.go"]}
{"id": "C09", "title": "ReadString decodes every JSON string as specified", "statement": "ReadString accepts exactly the JSON string literals and returns the bytes they denote: plain bytes are copied, the eight short escapes and \\uXXXX are decoded to UTF-8, surrogate pairs are joined, unpaired surrogates become U+FFFD.", "quantifier": "every string literal, every sequence of escapes, every chunking", "why_tests_cant": "Runs of surrogates and escapes of any length go through a retry loop; tests cover a few lengths only.", "anchors": ["iterator_str.go:ReadString,ReadStringAsSlice,ReadStringAndAppend,readEscapedChar,readU4,appendRune"]}
{"id": "C10", "title": "Unsigned integer reads are exact or fail", "statement": "ReadUint16, ReadUint32, ReadUint64 and ReadUint return the exact value of the digits at the read position if it fits in the type and an overflow error otherwise; no wrapped value is ever returned. For ReadUint8 this fails: it stops after three digits.", "quantifier": "every digit sequence of every length, every chunking", "why_tests_cant": "Overflow checks are skipped for short digit runs and depend on the digit count and on refills; the exact boundary behaviour holds for 2^64 values and all longer texts.", "anchors": ["iterator_int.go", "iterator_int8.go", "iterator_int16.go", "iterator_int32.go", "iterator_int64.go"]}
{"id": "C11", "title": "Signed integer reads are exact or fail", "statement": "ReadInt16, ReadInt32, ReadInt64 and ReadInt return the exact signed value if it lies between the type's minimum and maximum, and an error otherwise, including the asymmetric minimum.", "quantifier": "every signed digit sequence, every chunking", "why_tests_cant": "The conversion goes through an unsigned magnitude and a two's complement negation; only universal reasoning covers every magnitude.", "anchors": ["iterator_int8.go:readInt8", "iterator_int16.go:readInt16", "iterator_int32.go:readInt32", "iterator_int64.go:readInt64"]}
{"id": "C12", "title": "Float reads hand exactly the number text to ParseFloat", "statement": "ReadFloat32 and ReadFloat64 accept exactly the JSON number tokens accepted by ParseFloat and return the value ParseFloat gives for the token's text without its sign, negated if the token is negative.", "quantifier": "every input, every chunking", "why_tests_cant": "The token is collected piecewise across refills, fraction and exponent; dropping or duplicating a piece needs a special split.", "anchors": ["iterator_float.go", "iterator_float32.go", "iterator_float64.go"]}
{"id": "C13", "title": "The bit-packed nesting stack is a stack", "statement": "For any sequence of pushes and pops the stack of array/object markers gives back what was pushed, in last-in first-out order, at any depth, also when the memory comes from a pool and holds old bits.", "quantifier": "every sequence of operations of any length and depth, every stale content", "why_tests_cant": "Depth above 64 crosses word boundaries, and stale words depend on what previous users left behind.", "anchors": ["stack.go"]}
{"id": "C14", "title": "A pooled or reused iterator behaves like a new one", "statement": "After Reset or ResetBytes (or after being taken from the pool) the results of all operations are independent of whatever the iterator was used for before, including after failed operations.", "quantifier": "every previous state of the iterator, every following input and operation", "why_tests_cant": "The state space of leftovers (buffer contents, sizes, flags) is unbounded.", "anchors": ["iterator.go:reset,Reset,ResetBytes", "iterator_pool.go", "stack.go:initArray,initObject"]}
{"id": "C15", "title": "Incremental array and object iteration visits exactly the elements", "statement": "ReadArrayBegin/ReadArrayMore, ReadObjectBegin/ReadObjectMore and ReadArrayCB/ReadObjectCB visit each element or member once, in order, with the decoded key, and finish exactly after the closing bracket.", "quantifier": "every array and object text, every whitespace placement, every chunking", "why_tests_cant": "Unbounded element counts and whitespace positions.", "anchors": ["iterator_array.go", "iterator_object.go"]}
{"id": "C16", "title": "NextValueType classifies without consuming", "statement": "NextValueType returns the type of the next value determined by its first non-space byte, skips only whitespace, and a following read gives the same result as without the call.", "quantifier": "every input and every chunking", "why_tests_cant": "A lookahead that consumes input at a refill boundary is invisible in most inputs.", "anchors": ["iterator.go:NextValueType", "value_type.go"]}
{"id": "C17", "title": "Encoded strings are valid JSON strings", "statement": "For any byte string, Streamer.String emits a valid JSON string literal containing no control byte; with HTML escaping it contains none of <, >, &, and never the code points U+2028 or U+2029.", "quantifier": "every byte string including invalid UTF-8, both escaping modes", "why_tests_cant": "All byte strings of all lengths, including truncated multi-byte sequences at the end.", "anchors": ["streamer_str.go:encodeString,safeSet,htmlSafeSet"]}
{"id": "C18", "title": "Strings survive encoding and decoding", "statement": "ReadString applied to the output of Streamer.String gives back the original string if it is valid UTF-8, and otherwise the string in which each undecodable byte is replaced by U+FFFD.", "quantifier": "every byte string, both escaping modes, every chunking on the reading side", "why_tests_cant": "Composition of two loops over an infinite domain.", "anchors": ["streamer_str.go", "iterator_str.go"]}
{"id": "C19", "title": "Integers are printed as their decimal numeral and read back", "statement": "Each Streamer integer method prints the canonical decimal numeral of its argument (a minus sign for negatives, no leading zeros), and the matching read method returns the same value.", "quantifier": "all values of all widths up to 64 bits", "why_tests_cant": "2^64 values cannot be enumerated, and the code has special cases per group of three digits.", "anchors": ["streamer_int.go", "iterator_int*.go"]}
{"id": "C20", "title": "Well-nested streamer calls produce the JSON text of the value", "statement": "Issuing the calls that describe a JSON tree (ObjectStart, Field, values, ObjectEnd, ArrayStart, ...) appends a valid JSON text that reads back as this tree, with commas and colons placed correctly wherever it is nested.", "quantifier": "every JSON tree of any shape and depth", "why_tests_cant": "The comma logic depends on a single flag carried through arbitrary call histories.", "anchors": ["streamer.go", "streamer_int.go", "streamer_str.go"]}
{"id": "C21", "title": "A streamer error is sticky", "statement": "Once a streamer has an error no further call changes its output, the error stays the first one, and Flush writes nothing and returns it.", "quantifier": "every sequence of calls after the error", "why_tests_cant": "Histories are unbounded; one method forgetting the check would be enough.", "anchors": ["streamer.go", "streamer_int.go", "streamer_float.go", "streamer_str.go", "streamer_val.go"]}
{"id": "C22", "title": "Flush neither loses nor duplicates bytes", "statement": "Whatever counts and errors the writer returns (within the io.Writer contract), the bytes accepted by the writer followed by the bytes still buffered are exactly the bytes produced so far. Flush returns nil only if the writer has accepted everything that was written, and otherwise the error of the writer, or ErrNoAttachedWriter if there is no writer.", "quantifier": "every sequence of Streamer calls and Flushes, every behaviour of the writer", "why_tests_cant": "Partial writes at every position and repeated flushes form an unbounded set of histories.", "anchors": ["streamer.go:Flush"]}
{"id": "C23", "title": "Encoder writes one line per value and stops at the first error", "statement": "As long as Encode returns nil, the writer has received exactly the JSON text of each value followed by a newline, in order; after an error every later Encode returns the same error and writes nothing.", "quantifier": "every sequence of values and every writer behaviour", "why_tests_cant": "Unbounded histories with failures at every point.", "anchors": ["encoder.go"]}
{"id": "C24", "title": "Decoder returns the values of a stream one by one", "statement": "On a concatenation of JSON values separated by whitespace, successive Decode calls return the values in order, then EOF, More tells whether another value follows, and a failed Decode makes all later calls return the same error.", "quantifier": "every list of values, every whitespace, every chunking", "why_tests_cant": "Refills can fall anywhere between and inside values.", "anchors": ["decoder.go"]}
{"id": "C25", "title": "Typed values survive Marshal and Unmarshal", "statement": "For the modelled Go types (booleans, all integer widths, strings, json.Number, slices, arrays, maps with string or integer keys or keys with MarshalText and UnmarshalText, pointers, structs with tags and the string option), Unmarshal of Marshal's output into a zero value gives back the value.", "quantifier": "every modelled type of any nesting and every value of that type", "why_tests_cant": "Types nest without bound and each value domain is huge.", "anchors": ["encoder_config.go:Marshal", "decoder_config.go:Unmarshal", "val_encoder_*.go", "val_decoder_*.go"]}
{"id": "C26", "title": "Unmarshal accepts only valid JSON", "statement": "If Unmarshal into a modelled type succeeds the input is a valid JSON text. This fails for map keys (an unquoted null is accepted) and for booleans with the string option (raw white space is accepted after the opening quote). If an interface with methods holds nothing, a nil pointer or no pointer, a value other than null is refused with the error for this case. A value of a type without a decoder, or of a map type without a decoder for its keys, is refused with TypeNotSupportedError before anything is read.", "quantifier": "every input and every modelled target type", "why_tests_cant": "The typed decoders form a third parser; agreement with the grammar is a statement about all inputs.", "anchors": ["val_decoder_native.go", "val_decoder_native_int.go", "val_decoder_native_map.go", "val_decoder_native_struct*.go"]}
{"id": "C27", "title": "Marshal produces valid JSON", "statement": "Marshal of a value of a modelled type succeeds with a valid JSON text. This fails for a nil json.RawMessage, which is encoded as nothing.", "quantifier": "every modelled type and value", "why_tests_cant": "Infinite set of types and values.", "anchors": ["encoder_config.go:Marshal", "val_encoder_*.go", "val_encoder_json_rawmessage.go"]}
{"id": "C28", "title": "Struct decoding sets exactly the named fields", "statement": "Decoding an object into a struct assigns each known member to its field in order, leaves the other fields alone, skips unknown members completely, or reports the first unknown member when unknown fields are disallowed. A member for a field that can only be reached through a nil pointer to an embedded struct of an unexported type is refused with ErrNilEmbeddedPointer, whatever its value is and whatever follows. A member for a string field with the option string, whose value is a string that contains neither null nor a JSON string, is refused with BadQuotedStringError, whatever follows. A member for a field of a type that is not supported is refused with TypeNotSupportedError, whatever its value is and whatever follows.", "quantifier": "every object text, every struct layout", "why_tests_cant": "Members come in any order, number and repetition, with arbitrary values to be skipped.", "anchors": ["val_decoder_native_struct.go", "val_decoder_native_struct_small.go", "val_decoder_native_struct_one_field.go"]}
{"id": "C29", "title": "Field lookup does not depend on the number of fields", "statement": "The one-field, small and general struct decoders match object keys to fields by the same rule: exact name first, otherwise the first field that is equal under case folding. The one-field decoder breaks the rule for keys with the long s or the Kelvin sign.", "quantifier": "every key, every list of field names", "why_tests_cant": "Keys are arbitrary byte strings including invalid UTF-8; the folding functions are specialised per name.", "anchors": ["struct_field_fold.go", "struct_field_upper.go", "val_decoder_native_struct*.go:find"]}
{"id": "C30", "title": "Struct description follows Go's embedding rules", "statement": "The field list computed for a struct has no duplicate names, is ordered by index sequence, and for each name holds the field at the least depth, a tagged one winning over untagged ones, and no field if the choice is ambiguous. The last part fails behind a struct that is embedded twice and itself embeds a struct: an ambiguous field is then reported.", "quantifier": "every struct type graph, including embedding cycles", "why_tests_cant": "Embedding graphs are unbounded; ambiguity and shadowing arise from combinations of levels.", "anchors": ["struct.go:describeStruct", "struct_field.go"]}
{"id": "C31", "title": "Tag options are parsed exactly", "statement": "A struct tag is split at its first comma into name and options, and an option is recognised exactly if it is one of the comma-separated items.", "quantifier": "every tag string and option name", "why_tests_cant": "All strings, in particular options that are prefixes or suffixes of others.", "anchors": ["struct_tag.go"]}
{"id": "C32", "title": "null has the documented effect", "statement": "Decoding null leaves booleans, numbers, strings, arrays and structs unchanged, and sets pointers, slices, maps and interfaces to nil.", "quantifier": "every modelled type, every previous value, every chunking", "why_tests_cant": "Each type with each old value.", "anchors": ["val_decoder_*.go"]}
{"id": "C33", "title": "Array and slice targets get exactly the elements", "statement": "Decoding an array text of n elements into a slice gives n elements in order; into a Go array of length k it sets the first min(n,k) elements, zeroes the remaining ones and skips the excess.", "quantifier": "every element count, every array length, every old content", "why_tests_cant": "Growth steps and lengths are unbounded.", "anchors": ["val_decoder_native_slice.go", "val_decoder_native_array.go", "link_reflect.go:unsafeGrowSlice"]}
{"id": "C34", "title": "Slice growth keeps elements", "statement": "Growing a slice during decoding keeps the existing elements and yields capacity for the new length, for any sequence of growths.", "quantifier": "every length, capacity and growth sequence", "why_tests_cant": "The growth rule has several regimes above and below 1024.", "anchors": ["link_reflect.go:unsafeGrowSlice"]}
{"id": "C35", "title": "Concurrent first use of types is safe", "statement": "Whatever the interleaving of goroutines asking for encoders or decoders of new types, each gets a complete encoder for its type, published caches only grow, and no published cache is modified.", "quantifier": "every number of goroutines, every interleaving, every order of types", "why_tests_cant": "Schedules cannot be enumerated by tests; the race detector only sees the runs it is given.", "anchors": ["encoder_config.go:createEncoder,getEncoderFromCache", "decoder_config.go:createDecoder,getDecoderFromCache"]}
{"id": "C36", "title": "Decoding into a self-referential interface terminates", "statement": "Decoding into an interface{} on a cycle of pointers and interfaces reports ErrEfaceLooping and changes no variable; decoding along pointers that end decodes the variable at the end and reports no loop. Other cycles (through pointers only, or that do not contain the interface the check compares with) are not reported and recurse for ever.", "quantifier": "every chain of interface pointers", "why_tests_cant": "Pointer graphs are unbounded, and failure means a stack overflow that kills the test.", "anchors": ["val_decoder_native_interface.go:checkLoop,efaceDecoder"]}
{"id": "C37", "title": "omitempty omits exactly the empty values", "statement": "A field with omitempty is left out exactly if it is false, 0, a nil pointer or interface, or an empty map, slice or string; the check itself never fails. This breaks for string-kind types with a value-receiver MarshalJSON or MarshalText, whose emptiness test is missing.", "quantifier": "every modelled field type and value", "why_tests_cant": "One kind per type in an open set of user types.", "anchors": ["is_empty.go", "val_encoder_native_struct.go", "val_encoder_json_marshaler.go", "val_encoder_text_marshaler.go"]}
{"id": "C38", "title": "Error locations are computed safely", "statement": "Building the error location never goes out of bounds, returns at most 40 bytes of the current buffer around the position, and the reported offset lies within the text. An error that is wrapped again, by any iterator, keeps its reason and its first location.", "quantifier": "every iterator state reachable by any operation sequence", "why_tests_cant": "Positions near both ends of the buffer after failures of any operation.", "anchors": ["iterator.go:errorLocation,WrapError"]}
{"id": "C39", "title": "Binary data survives base64 encoding", "statement": "A []byte is encoded as a JSON string with its standard base64 text, and decoding this string gives the same bytes. A JSON string that is not base64 is refused with the CorruptInputError of the base64 package.", "quantifier": "every byte slice of every length", "why_tests_cant": "Lengths modulo 3 and all byte values.", "anchors": ["val_encoder_native_base64.go", "val_decoder_native_slice.go"]}
{"id": "C40", "title": "Printed floats are JSON numbers", "statement": "Float32 and Float64 print a valid JSON number for every finite value, with exponents cleaned of a leading zero without changing the value, and report an error for infinities and NaN, printing nothing. The number is written with an exponent exactly if it is not zero and its absolute value is below 1e-6 or at least 1e21, whatever its sign.", "quantifier": "every float, every formatting result of strconv.AppendFloat within its contract", "why_tests_cant": "All 2^64 floats; the clean-up edits the end of a shared buffer.", "anchors": ["streamer_float.go"]}
{"id": "C41", "title": "Marshal reports the first failure", "statement": "If a part of a value has no JSON representation (an infinite or NaN float, a type without encoder, a MarshalJSON or MarshalText method that fails), Marshal returns the error of the first such part in encoding order and no text, however deep the part is; a streamer keeps this error.", "quantifier": "every type, value and set of user methods", "why_tests_cant": "Failing parts at every depth, behind every combination of containers, pointers, interfaces and omitted fields.", "anchors": ["val_encoder.go:notSupportedEncoder", "val_encoder_json_marshaler.go", "val_encoder_text_marshaler.go", "streamer_float.go", "encoder_config.go:Marshal"]}
{"id": "C42", "title": "The cached encoders encode what their types say", "statement": "Marshal with the encoders that any execution of concurrent goroutines has put in the caches - linked structs applied to interface data words, directly for pointer-shaped types and through an address otherwise - writes the JSON representation of the value, or reports the error of the first part without one.", "quantifier": "every set of types, every execution that fills the caches, every value whose dynamic types are cached", "why_tests_cant": "Encoders depend on the order in which types were first used and on the memory shape of every dynamic type.", "anchors": ["encoder_config.go", "streamer_val.go", "val_encoder_direct.go", "val_encoder_json_marshaler.go", "val_encoder_text_marshaler.go", "eface.go"]}
{"id": "C43", "title": "The cached decoders decode what their types say", "statement": "Unmarshal and ReadVal with the decoders that any execution of concurrent goroutines has put in the cache - linked structs, which refer to each other for recursive types - accept exactly the texts of the type and store exactly the specified value; no nil decoder is called, and the stored value can be decoded into again.", "quantifier": "every set of types, every execution that fills the cache, every input, every variable whose dynamic types are cached", "why_tests_cant": "Decoders depend on the order in which types were first used, and recursive types make cyclic structures of decoders.", "anchors": ["decoder_config.go", "iterator_val.go", "iterator.go", "val_decoder_native_interface.go", "val_decoder_native_ptr.go", "val_decoder_native_struct.go"]}
{"id": "C44", "title": "Memory is not shared by accident", "statement": "The library writes only to arrays of its own: never to the input data, to a result it has returned, or to an array of another iterator or streamer, unless AppendRaw is told to. Results are copies; a slice lent by SkipRaw or ReadStringAsSlice stays as it is for as long as documented; pooled iterators and streamers hold nothing of a caller. Every decoding function, run on slices in memory that share arrays and grow in place, gives the result it has on values.", "quantifier": "every sequence of operations by any number of callers, iterators and streamers, every growth strategy of append, every input and type", "why_tests_cant": "Aliasing shows only when a particular later operation happens to write into a shared array; tests see few interleavings and one growth strategy.", "anchors": ["iterator.go", "iterator_pool.go", "iterator_raw.go", "iterator_str.go", "iterator_number.go", "streamer.go", "streamer_pool.go", "streamer_float.go", "encoder_config.go", "convert.go"]}
{"id": "C45", "title": "Calls of the library do not influence each other", "statement": "Iterators and streamers are shared through pools by all calls of Marshal, Unmarshal, Valid, by Decoders and Encoders and by direct users. Whatever the other users do, in whatever order, and whatever the pool hands out or drops, every user gets the results of a user who is alone and has brand-new objects, as long as nobody uses an object after releasing it. No object is ever in two hands, and the pooled ones refer to no data of a user.", "quantifier": "every number of users, every interleaving of their calls, every choice of the pools, every configuration, input and type", "why_tests_cant": "What an object in the pool remembers depends on all earlier calls in the process; tests start from an empty pool and rarely mix configurations, errors, and half-finished streams.", "anchors": ["iterator_pool.go", "streamer_pool.go", "iterator.go", "streamer.go", "decoder.go", "encoder.go", "encoder_config.go", "decoder_config.go"]}
{"id": "C46", "title": "The output is UTF-8 and safe in HTML", "statement": "Whatever value is encoded, the text that Marshal, Streamer.Value, the methods of a streamer and an Encoder write is valid UTF-8 without U+2028 and U+2029, and without the characters <, > and & if HTML escaping is on, as far as the texts that are JSON by themselves (json.Number, json.RawMessage, results of MarshalJSON) have these properties. This holds for struct field names and map keys too, and for what has been written before an error.", "quantifier": "every Go type and value of it, every byte string in it, every state of the streamer, every sequence of calls or encoded values", "why_tests_cant": "One string path without escaping (a field name, a map key, a quoted string, a text marshaler) is enough for an injection; tests look at few combinations of paths and characters.", "anchors": ["streamer_str.go", "streamer_val.go", "val_encoder_native_struct.go", "val_encoder_native_map.go", "val_encoder_native.go", "encoder.go", "encoder_config.go"]}
{"id": "C47", "title": "Decoding keeps the types of variables", "statement": "After a successful ReadVal, Unmarshal or UnmarshalFromReader every variable reached, through pointers, structs with embedded pointers, arrays, slices, maps and interfaces, holds a value of its own type: integers in range, arrays of the right length, struct values with their fields, maps with distinct keys of the key type, interfaces with a value of the type they name.", "quantifier": "every Go type, every value held before, every input, every reachable iterator", "why_tests_cant": "The decoders write through unsafe pointers, so a wrong width or layout corrupts memory silently and the visible result can still look right.", "anchors": ["val_decoder_native_struct.go", "val_decoder_native_map.go", "val_decoder_native_slice.go", "val_decoder_native_array.go", "val_decoder_native_ptr.go", "val_decoder_native_interface.go", "iterator_val.go", "iterator.go"]}
{"id": "C48", "title": "Untyped JSON can be copied", "statement": "Whatever JSON text is accepted into an interface{} variable, with or without UseNumber, Marshal of the variable succeeds and gives JSON that is UTF-8 and HTML safe; if the input was UTF-8, reading this text again gives the same value. Bytes that are not UTF-8 are kept by the decoder but replaced by the encoder.", "quantifier": "every input, every reachable iterator, every configuration", "why_tests_cant": "Copying needs reading and writing to agree on every string, number, duplicate key and nesting; tests compare examples.", "anchors": ["iterator_read.go", "iterator_read_array.go", "iterator_read_object.go", "val_decoder_native_interface.go", "val_encoder_native_interface.go", "streamer_val.go", "encoder_config.go"]}
{"id": "C49", "title": "An Encoder and a Decoder transport any sequence of values", "statement": "Values of any types that survive encoding (as in C25), written one after the other by an Encoder, are returned by the Decode calls of a Decoder on the written bytes, in the same order and for each way in which the bytes arrive; More is true before each of them and false at the end.", "quantifier": "every list of values of any types, every reader and chunking, both HTML modes", "why_tests_cant": "The separators, the state that the streamer and iterator carry from value to value, and the positions of chunk ends interact; tests try few sequences.", "anchors": ["encoder.go", "decoder.go", "streamer.go", "iterator.go", "streamer_val.go", "iterator_val.go"]}
{"id": "C50", "title": "Decoding always ends and decides which texts are decodable", "statement": "Decoding any bytes into a variable of any type (recursive types included, but no type that is a pointer to itself) ends, on every reader: with a value of the type, or with an error of the grammar, the reader or a user's method. Unmarshal returns a value if the text has one for the type and otherwise an error. The decoders never meet a value that is not of their type.", "quantifier": "every type and environment of named types, every old value, every input, reader and reachable iterator", "why_tests_cant": "Termination is about all inputs: recursive types, interfaces that hold pointers, and null or empty inputs must each consume the type or the text.", "anchors": ["iterator.go", "iterator_val.go", "val_decoder.go", "val_decoder_native_ptr.go", "val_decoder_native_struct.go", "val_decoder_native_slice.go", "val_decoder_native_map.go", "val_decoder_native_interface.go"]}
{"id": "C51", "title": "Encoding ends, and panics only for listed values", "statement": "For every value of every Go type, Value, Marshal and Encode return a text or an error: they do not panic and do not run for ever, unless a part of the value is of one of five kinds (an interface type with a marshal method and others, a nil pointer in json.Marshaler or encoding.TextMarshaler, a nil *encoding.TextMarshaler, a map with keys of an interface type with MarshalText, omitempty on a type whose emptiness cannot be tested) or the value is a part of itself.", "quantifier": "every type and environment, every value, every user-defined type with any methods, every streamer state and writer", "why_tests_cant": "Absence of panics is about all combinations of types, methods, addressability and nil values; each test has one.", "anchors": ["streamer_val.go", "encoder.go", "encoder_config.go", "val_encoder.go", "val_encoder_json_marshaler.go", "val_encoder_text_marshaler.go", "val_encoder_native_ptr.go", "val_encoder_native_struct.go", "val_encoder_native_map.go", "val_encoder_native_interface.go", "is_empty.go"]}
{"id": "C52", "title": "What a failed decoding leaves in the variable", "statement": "When Unmarshal, UnmarshalFromReader or ReadVal fails, the variable holds a value of its type that the text and the old value determine: the parts before the error are decoded, the part with the error is in the same way partly decoded (array elements, map entries, struct fields, allocated embedded pointers, variables behind pointers and interfaces), everything after it is unchanged. Slices, strings, numbers, booleans, raw messages and nil pointers are replaced as a whole or not at all. If data follows the value, the variable holds the value.", "quantifier": "every type and environment, every old value, every text and iterator state, every error position, every behaviour of failing unmarshal methods", "why_tests_cant": "Errors can be at each position of each text, inside each nesting of types; what must not change is everything else.", "anchors": ["val_decoder_native.go", "val_decoder_native_int.go", "val_decoder_native_ptr.go", "val_decoder_native_array.go", "val_decoder_native_slice.go", "val_decoder_native_map.go", "val_decoder_native_struct.go", "val_decoder_native_interface.go", "val_decoder_json_unmarshaler.go", "val_decoder_text_unmarshaler.go", "iterator_val.go", "iterator.go"]}
{"id": "C53", "title": "No call of the reader beyond a complete value", "statement": "A value whose bytes have all arrived is returned without another call of the reader, so decoding from a connection that stays open does not block after the last byte of a value: every method of the iterator, every client program, ReadVal for every type, More and a sequence of Decode calls take what is in the buffer, ask for bytes one call at a time only while the text is incomplete, and report an error in the bytes that are there without waiting for others. Numbers need the byte that follows them.", "quantifier": "every iterator state reached by any history, every client program, every type, every split of the text into a part in the buffer and a part that arrives byte by byte, whatever the reader would do afterwards", "why_tests_cant": "A test sees that the right value comes back; whether the reader was called once too often depends on where the buffer ends, for each position in each text and each decoder.", "anchors": ["iterator.go", "iterator_skip.go", "iterator_read.go", "iterator_str.go", "iterator_float.go", "iterator_val.go", "val_decoder_native.go", "decoder.go"]}
{"id": "C54", "title": "The options of a decoder change only what they promise", "statement": "With DisallowUnknownFields every decoding has the same result, value or error, as without it, unless it is the refusal of a member. What is accepted without UseNumber is accepted with it and conversely if ParseFloat accepts the numbers of the input, and the two values differ only in numbers held by interfaces: a float64 in one, the json.Number with its text in the other. What is accepted with CaseSensitive and without unknown members is accepted without CaseSensitive, with the same value. Whatever the strictest setting accepts is accepted with every setting.", "quantifier": "all types, inputs, values the variable held before, iterator states reached by any history, all settings of the three options", "why_tests_cant": "Each option acts deep inside decoders of nested types; a test compares two settings on one input, the claim is about all inputs, also those that fail.", "anchors": ["decoder_config.go", "iterator.go", "iterator_read.go", "val_decoder_native_struct.go", "val_decoder_native_struct_small.go", "val_decoder_native_struct_one_field.go", "val_decoder_skip.go", "val_decoder_native_interface.go", "struct_field_fold.go"]}
{"id": "C55", "title": "The maps and slices that Read makes are shared with nobody", "statement": "The value that Read returns is made of maps and arrays that were made during that call, each found in one way only, and Read writes to no others: not to those of earlier results, although the node stack in the pool still refers to them, and not to those that another part of the same result uses, although append writes into spare capacity. So a result stays as it is during all later calls, and a program that changes one part of a result changes nothing else. Value, error and place in the input are those of Read without the memory.", "quantifier": "every memory, every content of the node stack from the pool (entries of earlier calls included), every growth of arrays by the runtime, every input and iterator state, every sequence of later calls and writes of the program", "why_tests_cant": "Sharing shows only when an old result is looked at after a later call that happens to get the same node stack and to append in place; the number of such histories is unbounded.", "anchors": ["node.go", "iterator_read.go", "iterator_read_array.go", "iterator_read_object.go"]}
{"id": "C56", "title": "The read buffer does not grow with the input unless raw text is asked for", "statement": "A client that reads from an io.Reader without asking for raw values or for numbers as text leaves the read buffer exactly as large as it was, whatever the input is and however the calls end; the same holds for ReadVal and Decode into types without json.RawMessage, json.Number, []byte, interfaces and UnmarshalJSON methods. No call at all makes the buffers grow by more than the bytes it takes from the reader.", "quantifier": "every client program (any nesting of calls and callbacks), every type of a closed set of such types, every input, every behaviour of the reader, every iterator state", "why_tests_cant": "A leak of buffer space shows only for long inputs with particular chunk boundaries; a test fixes one input and one chunking.", "anchors": ["iterator.go", "iterator_raw.go", "iterator_number.go", "val_decoder_native_slice.go"]}
{"id": "C57", "title": "Input that is cut off and input that is wrong are told apart", "statement": "A call that takes any JSON value (Skip, SkipRaw, ReadRaw, AppendRaw, Read, ReadVal and Unmarshal of a json.RawMessage or an empty interface) returns the error of the reader (io.EOF or its failure) if and only if the input is a proper beginning of a JSON text, that is, some continuation makes it valid and no value stands there yet; and it returns an error that names the byte c if and only if c is the first byte of the input that no continuation can repair. Read without UseNumber may in addition return the error of strconv. Unmarshal returns ErrDataRemained if and only if a value is followed by more than white space.", "quantifier": "every input, every chunking and ending of the reader, every reachable iterator state", "why_tests_cant": "That no continuation at all would be valid is a statement about infinitely many texts; tests try single truncated inputs.", "anchors": ["iterator.go", "iterator_skip.go", "iterator_raw.go", "iterator_read.go", "iterator_str.go", "iterator_number.go", "iterator_float.go"]}
{"id": "C58", "title": "The error of the end of the input means that the text is cut off there, whatever the target", "statement": "If ReadVal, Unmarshal, Decode or any call of an iterator that starts at a value returns the error of the end of the input (io.EOF, or the failure of the reader), then no complete value stands at the start of the input and some continuation of the input is a JSON text: no wrong input is reported as merely too short. UnmarshalFromReader, which looks behind the value, may also return the failure of the reader after a complete text. It holds for all types but those with maps (whose key decoders take null) and booleans with the option string (which take line feeds); for both it is refuted.", "quantifier": "every type without maps and quoted booleans, including recursive ones, every old value whose interfaces hold no pointers, every input, every chunking and ending of the reader, every reachable iterator state", "why_tests_cant": "It concerns every combination of types and every place at which an input can end, and the existence of a continuation; tests truncate single inputs.", "anchors": ["val_decoder_native_struct.go", "val_decoder_native_slice.go", "val_decoder_native_array.go", "val_decoder_native_int.go", "val_decoder_json_number.go", "decoder.go", "iterator.go", "iterator_array.go", "iterator_object.go"]}
{"id": "C59", "title": "Texts that differ only in their spelling are decoded to the same value", "statement": "Two texts with the same JSON value (which differ in white space and in the escape sequences of strings and names only) are both accepted, with the same value, or both refused, by Unmarshal and UnmarshalFromReader; ReadVal stores the same value and leaves the input at the same place. For the types whose decoders take the text between quotes as it is ([]byte, json.Number, the option string on numbers and booleans, integer map keys) this holds for differences in white space; for escape sequences it is refuted. json.RawMessage and UnmarshalJSON, which get the text itself, are left out. A text has one JSON value only.", "quantifier": "every type, including recursive ones, without json.RawMessage and UnmarshalJSON, every old value whose interfaces hold pointers to such types only, all pairs of texts, every chunking of the reader, all pairs of reachable iterator states with the same options", "why_tests_cant": "It relates two runs on unboundedly many pairs of texts of any nesting, for every type; a test compares single pairs.", "anchors": ["val_decoder_native_struct.go", "val_decoder_native_slice.go", "val_decoder_native_array.go", "val_decoder_native_map.go", "val_decoder_native.go", "val_decoder_native_int.go", "val_decoder_native_float.go", "val_decoder_json_number.go", "val_decoder_native_interface.go", "val_decoder_text_unmarshaler.go", "iterator.go", "iterator_str.go", "decoder.go"]}
{"id": "C60", "title": "The order of the members of an object does not matter", "statement": "If two texts differ only in the order of the members of objects, at any depth (and in white space and escape sequences), where members with names for the same field are not exchanged, then Unmarshal and UnmarshalFromReader accept both or refuse both, and the values stored are the same, up to the order in which maps list their entries. In particular any permutation of the members of an object will do if their names are pairwise different under case folding, or just different with CaseSensitive. Refuted for a name given twice, for names equal under case folding, and for maps with integer keys (\"0\" and \"-0\"); the error that is reported may depend on the order. For structs whose fields may have any types, members of the struct's object may be moved as they are, and the value stored is exactly the same.", "quantifier": "every type, including recursive ones, without json.RawMessage, UnmarshalJSON and the types that take the text between quotes as it is, with string keys in maps and structs whose fields do not overlap, every old value, all pairs of texts, every chunking of the reader, all pairs of reachable iterator states with the same options; for the last part, every struct whose fields do not overlap, and pointers to it, with json.RawMessage, custom methods and quoted fields included", "why_tests_cant": "It relates runs on all reorderings of texts of any size and nesting, for every type; a test compares single pairs.", "anchors": ["val_decoder_native_struct.go", "val_decoder_native_map.go", "val_decoder_native_slice.go", "val_decoder_native_array.go", "val_decoder_native_interface.go", "iterator_read_object.go", "decoder.go", "struct_field.go"]}
{"id": "C61", "title": "The encoder writes no white space between tokens", "statement": "The text that Marshal returns, the text that a value appends to a streamer, and the text that well-nested calls of a streamer write contain no white space outside strings, provided that this holds of the texts taken unchanged from json.RawMessage, from MarshalJSON methods and from raw calls. So the text of Marshal is strictly shorter than every other text that differs from it in white space only. Removing the white space outside strings from any JSON text gives a JSON text of the same value, and decoding it gives the same result. Refuted without the proviso: texts of json.RawMessage and MarshalJSON are written with their white space (encoding/json compacts them).", "quantifier": "all Go values that have a representation, of all types; all trees of streamer calls; all JSON texts; all contents of RawMessage and results of MarshalJSON", "why_tests_cant": "Tests compare the output for a few values; a blank after a comma in one of the many container encoders would be valid JSON and pass every test that decodes the output again.", "anchors": ["streamer.go", "streamer_val.go", "val_encoder_json_marshaler.go", "val_encoder_json_rawmessage.go", "val_encoder.go"]}
{"id": "C62", "title": "Decoding a text again into the same variable changes nothing", "statement": "If Unmarshal or UnmarshalFromReader decodes a text into a variable, then decoding the same text again into the variable, with whatever it holds by now, is accepted and leaves it exactly as it is, for all texts in which no field is written twice and for all initial contents of the variable: struct fields, arrays, allocated pointers, existing map entries and pointers in interfaces are decoded in place a second time. For the types of C60 the second text may also have its members in another order. For types with UnmarshalText and UnmarshalJSON methods this holds if it holds of the methods. Refuted if a field is written twice (an interface with methods that holds a pointer becomes nil and the second decoding fails) and for UnmarshalText and UnmarshalJSON methods that append.", "quantifier": "all types whose struct fields do not overlap, with RawMessage, json.Number, quoted fields and custom methods; all values of the variable; all JSON texts in which no object has two names for one field; all iterators, readers and deliveries", "why_tests_cant": "Tests decode into fresh variables, or twice with two different texts of a few types; the claim is about every old value, nesting of pointers, maps, arrays and interfaces, and every text.", "anchors": ["val_decoder_native_struct.go", "val_decoder_native_map.go", "val_decoder_native_array.go", "val_decoder_native_ptr.go", "val_decoder_native_interface.go", "decoder.go"]}
{"id": "C63", "title": "A value survives the reformatting of its text", "statement": "For every value that Marshal and Unmarshal restore (C25), the text that Marshal writes may be changed in its white space, in the escapes of its strings, or in the order of the members of its objects before it is decoded: the result is the same value (for a changed order: up to the order of map entries). Different values of this kind never have the same text. Refuted for values outside: strings that are not UTF-8 share their texts, and json.RawMessage keeps the white space of the changed text.", "quantifier": "all types that do not see the spelling of a text (C59) or the order of members (C60), all values of them that C25 restores, all texts that differ from the text of Marshal in these ways, all iterators", "why_tests_cant": "A round-trip test decodes exactly the bytes that the encoder wrote; what a formatter or another JSON library may do to them in between are infinitely many texts per value.", "anchors": ["encoder.go", "decoder.go", "streamer_val.go", "val_decoder_native_struct.go", "val_encoder_native_struct.go"]}
{"id": "C64", "title": "Decoding an object is decoding its members one after the other", "statement": "An object is decoded into a struct, a map, or a pointer to one with some result if and only if its first members as an object of their own, and then its remaining members into what they leave, are decoded with this result: a document is a sequence of updates, and it can be cut between any two members, down to single members. Names that are written twice, unknown names, names that differ in case only and members that are themselves objects are included. White space between the tokens does not matter. Refuted for interface{}, where the second part replaces the first.", "quantifier": "all structs, maps, named types and pointers to them, with any types of fields and elements, custom methods, RawMessage and quoted fields included; all contents of the variable; all objects and all places to cut them; all options, iterators, readers and deliveries", "why_tests_cant": "Tests decode whole documents into fresh variables; the claim relates every document to the decodings of all its parts, for every type and every old value.", "anchors": ["val_decoder_native_struct.go", "val_decoder_native_map.go", "val_decoder_native_ptr.go", "iterator_object.go", "decoder.go"]}
{"id": "C65", "title": "A value may be decoded now, skipped, or kept as raw text and decoded later", "statement": "If ReadVal (or Decode) decodes the next value into a variable of any type, and Skip accepts it, then both leave the same rest of the input, unless the value is a number of which ReadVal took only a first part that is a number as well; this is excluded if the rest that ReadVal leaves begins with a separator or is empty, or if the value does not begin like a number. If ReadRaw returns the text of the next value and Unmarshal decodes this text, then ReadVal decodes the value in place with the same result and the same rest, and the other way round. Refuted for integers without the exception: 1.5 is read as 1 from a stream and refused as raw text.", "quantifier": "all types, custom methods, RawMessage, quoted fields and interfaces included; all contents of the variable; all inputs, deliveries and iterators", "why_tests_cant": "Tests compare a few values; the claim is that typed decoding and untyped skipping agree on where every value ends, for every type and every way in which the input is delivered.", "anchors": ["val_decoder.go", "decoder.go", "iterator_skip.go", "iterator_raw.go", "iterator.go"]}
