# Formal model of jzon: design

Tool: Rocq/Coq 8.16.1, standard library only (no third-party library is imported).
Code: /repo (zerosnake0/jzon), read as text.

## 1. Layers

1. **Specification** (`Spec*.v`). Small definitions written from RFC 8259 and the Go
   documentation. They do not mention the model: the JSON grammar as an inductive
   relation between byte lists and values, decimal numerals, UTF-8 and UTF-16
   decoding, Go's field selection rule, and so on.
2. **Model** (`Model*.v`). The Go functions, one definition per function. Every
   definition cites the file and lines. The iterator is modelled concretely: buffer, head,
   tail, offset, capture flag, temporary buffer and a reader. The reader holds
   the bytes not yet delivered, a finite script that says how many bytes each Read
   call wants to return (0 allowed, and whether EOF comes together with the last bytes)
   and its final error. Indexing and slicing outside the bounds gives the result `Panic`.
   Loops have fuel computed from the iterator state; `OutOfFuel` is a separate result.
   Theorems exclude both.
3. **Proofs** (`Sim*.v`, `*Facts.v`). A refinement relation between iterator actions and
   pure functions on the remaining byte list (`sim`): same value, same error, same rest,
   offset accounting and capture preservation. Every iterator function is shown to refine
   a pure function, and the pure functions are related to the specification.
4. **Statements** (`Properties*.v`). Only theorems closed by one lemma, examples showing
   that the hypotheses can be met, and `Print Assumptions`.

## 2. Representation choices

- A byte is a `Z`. The model does not need the bound 0..255 unless a theorem says so.
- Lengths, positions and fuel are `nat`. Machine integers are `Z` with explicit `mod 2^k`.
- A Go slice is a list; aliasing is modelled only where the code relies on it.
- `strconv.ParseFloat`, `strconv.AppendFloat` and `unicode.SimpleFold` are external: they
  are arguments of the definitions, and what is assumed of them is a hypothesis of the
  theorem (met by an example instance).
- User callbacks are arbitrary functions: MarshalJSON, MarshalText, UnmarshalJSON and
  UnmarshalText of a user-defined type are fields of `custom` and of the marshal
  environment; they get the text or the state and return a text, a state or an error. Map keys of
  types with MarshalText or UnmarshalText are `KO` values that the methods make and read. They
  do not call the library again. User-defined ValDecoders and ValEncoders appear in the caches
  (C36, C38, C42, C43) as opaque entries.
- Two simplifications of ModelVal.v for types the theorems about the caches exclude: a named
  pointer type `type P *T` whose T has UnmarshalJSON or UnmarshalText, or is json.Number or
  json.RawMessage, is decoded by the method in the model and by the kind of T in the code
  (`dp_pointers` in SpecLink.v excludes it). A `[]T` whose T is a user-defined type with
  methods and kind uint8 accepts base64 in the code; in the model only slices of uint8
  itself and of named types without methods do.

## 3. Properties and how they are proved

MANIFEST.json names the theorems; properties that are not in it are not proved yet.

- **C01** Valid accepts exactly RFC 8259 JSON texts: `Valid` on the concrete iterator over `ResetBytes`; induction on the grammar for completeness, induction on the fuel of the stack machine with a stack-indexed continuation grammar for soundness.
- **C02** Results do not depend on how the reader chunks the input: `sim` for every operation; corollary: two iterators with the same remaining bytes give the same result.
- **C03** No input makes the iterator index out of range or loop forever: `sim` has no `Panic` and no `OutOfFuel` outcome on the pure side.
- **C04** InputOffset counts the consumed bytes exactly: Part of `sim`: offset+head grows by the length of the consumed prefix; the stream is buffered ++ unread.
- **C05** Skip consumes exactly one JSON value: Pure skip related to the grammar: success iff a value prefix exists, with maximal munch for numbers.
- **C06** SkipRaw, ReadRaw, AppendRaw and ReadNumber return exactly the bytes of the value: Capture part of `sim`: with capture on, the buffer up to head is extended by exactly the consumed bytes.
- **C07** Read returns the value denoted by the text: Stack machine of Read with explicit node stack against the value-producing grammar; float parsing is an argument.
- **C08** Read and Skip accept the same texts and consume the same bytes: From C05 and C07: both are characterised by the same grammar.
- **C09** ReadString decodes every JSON string as specified: Pure string reader against an inductive string grammar with denotation, including the surrogate retry loop.
- **C10** Unsigned integer reads are exact or fail: Digit loop invariant: accumulated value is the exact numeral value as long as it does not exceed the maximum; refutation for 8 bits by a computed witness.
- **C11** Signed integer reads are exact or fail: On top of C10, two's complement negation made explicit.
- **C12** Float reads hand exactly the number text to ParseFloat: Collected text equals the token text; ParseFloat is an argument.
- **C13** The bit-packed nesting stack is a stack: Words as Z with bit operations; refinement to a list of booleans.
- **C14** A pooled or reused iterator behaves like a new one: `sim` quantifies over arbitrary leftovers; Reset establishes the invariant from any state.
- **C15** Incremental array and object iteration visits exactly the elements: Iteration functions composed with an abstract element reader; against the grammar of arrays/objects.
- **C16** NextValueType classifies without consuming: `sim` for nextToken and idempotence.
- **C17** Encoded strings are valid JSON strings: Loop of encodeString over a full model of utf8.DecodeRuneInString; grammar of string literals.
- **C18** Strings survive encoding and decoding: Composition of C17's loop with the string reader.
- **C19** Integers are printed as their decimal numeral and read back: append functions against a decimal numeral specification; digits table by finite sweep lifted to all values; group recursion.
- **C20** Well-nested streamer calls produce the JSON text of the value: Streamer model as a state machine; induction on the JSON tree.
- **C21** A streamer error is sticky: Case analysis over all streamer calls, induction over call sequences.
- **C22** Flush neither loses nor duplicates bytes: Writer as arbitrary function of history within the io.Writer contract; invariant over call sequences.
  Properties37.v: C22_outcome and C22_unattached (what the result of Flush says).
- **C23** Encoder writes one line per value and stops at the first error: Encoder state machine over writer behaviours.
- **C24** Decoder returns the values of a stream one by one: decoder state machine over the iterator model; `session` (SpecDecoder.v) gives the results of a list of Decode and More calls from the byte stream alone.
- **C25** Typed values survive Marshal and Unmarshal: `keeps` (SpecEnc.v) says which values can survive; every text that `encodes` allows for such a value is one that `decodes` turns into the value (EncRound.v, mutual induction on the derivation of `encodes`). C25_struct shows that structs with their own fields qualify.
- **C26** Unmarshal accepts only valid JSON: `decodes` (SpecVal.v) says for each type which texts are accepted and what value results; soundness by induction on the nesting fuel, completeness by induction on the derivation (DecSound.v, DecComplete.v). The accepted texts are then compared with the grammar (DecStrict.v); refutations by computed witnesses, positive theorem for types without maps and quoted booleans.
  Properties35.v: C26_receiver (the error if an interface with methods has nothing to decode into; `wordless` says for which values the data word of the interface is nil).
  SpecSupport.v and Properties39.v: C26_unsupported (types without a decoder are refused before anything is read).
- **C27** Marshal produces valid JSON: `encodes` (SpecEnc.v) relates a Go value to the texts that represent it, `fits` describes the values that have one. The encoders write such a text (EncFacts.v: `encode_ok`), every such text is JSON and every value that fits has one (EncRound.v). Refutations by computed witnesses.
- **C28** Struct decoding sets exactly the named fields: the last member that names a field decides it, other fields keep their values (StructFacts.v), from the specification of C26.
  SpecBlock.v and Properties36.v: C28_embedded (`blocked` says when the way to a field leads through a nil pointer that may not be set).
  SpecReach.v and Properties38.v: C28_quoted (`reached` says what the field at the end of a path holds).
  SpecSupport.v and Properties39.v: C28_unsupported (`unsupported` says which types have no decoder).
- **C29** Field lookup does not depend on the number of fields: The three find functions against one specification; refutation for the one-field decoder.
- **C30** Struct description follows Go's embedding rules: `route`, `candidate` and `selected` (SpecStruct.v) are the rules of the encoding/json documentation on a graph of types. The level loop has an invariant that relates the structs found so far to the shortest routes (DescSearch.v); sorting and the dominance phase choose the field that beats the others with its name (DescFacts.v). C30_described gives the exact result, C30_exact compares it with the rules.
- **C31** Tag options are parsed exactly: tag functions against splitting at commas.
- **C32** null has the documented effect: the typed decoder on null, for every type and old value.
- **C33** Array and slice targets get exactly the elements: from the specification of C26; growth of the slice is the model of C34.
- **C34** Slice growth keeps elements: unsafeGrowSlice model with capacity and backing array.
- **C35** Concurrent first use of types is safe: ModelCache.v gives the steps of any number of goroutines (load, look up, lock, load again, copy, build, store, unlock, use), with the memory each step reads or writes; the atomic loads and stores and the mutex are steps of their own. The protocol is proved for any build that meets some conditions (CacheFacts.v: an invariant over executions), and the two builds are shown to meet them (DecCache.v, EncCache.v). SpecCache.v and SpecEncCache.v say which decoder or encoder belongs to a type, as a tree unfolded to any depth, so that types may contain themselves. Theorems, for decoders and for encoders: complete (the value a goroutine gets is the one of its type, and published), published (it stays published, and no struct it leads to is written), unmodified, no_race, not_nil (no nil reference is ever called), no_deadlock, ends (builds end for any finite set of types that contains their components). Simplifications: copying the map is one step, and so is one iteration of each loop of a build; the mutex is not fair, so a goroutine may wait for ever; memory is sequentially consistent (by no_race, the Go memory model guarantees this).
- **C36** Decoding into a self-referential interface terminates: ModelEface.v gives variables addresses, so that pointers can form cycles, and models checkLoop and the interface and pointer decoders on them. SpecEface.v defines chains of pointers, cycles and the interface that the others are compared with (`checkpoint`). C36_finds, C36_spins and C36_ends (C36_value, C36_stores, C36_new) describe the three possible outcomes: the cycle is reported, the recursion never ends, the variable at the end is decoded, with what is stored where. C36_null, C36_null_new and C36_null_pointer describe null. C36_unmarshal is the claim for Unmarshal into an interface that is on the cycle. The refutations show the cycles that are not reported.
- **C37** omitempty omits exactly the empty values: `empty` is the sentence of the encoding/json documentation; the emptiness tests of the encoders are defined and right for the types in `tested`; the members of an encoded struct are exactly the fields that should be present. Refutations for the other types.
- **C38** Error locations are computed safely: errorLocation on concrete iterator states satisfying the invariant.
  Properties34.v: C38_wrapped (wrapping an error again, by any iterators, changes nothing).
- **C39** Binary data survives base64 encoding: Concrete base64 model, round trip by induction on groups; typed decoding and encoding of byte slices from C26 and C27.
  Properties38.v: C39_corrupt (which error a string that is not base64 gives).
- **C40** Printed floats are JSON numbers: AppendFloat output as an argument with its documented shape; clean-up function against the number grammar.
  Properties34.v: C40_form64 and C40_form32 say which floats are written with an exponent. They assume that the comparisons of the float type are those of the rational numbers that its values stand for (`ranked`), with 1e-6 and 1e21 as the type represents them.
- **C41** Marshal reports the first failure: `fails` (SpecFail.v) gives the error of the first part without representation, the parts before it being representable by `encodes`; mutual induction on it (FailFacts.v). A value that fails has no representation and one error.
- **C42** The encoders in the caches do what the per-type encoders do: ModelWord.v applies the encoder structs that ModelEncCache.v builds (which refer to each other) to machine words: the data word of an interface is the value itself for pointers, maps, and structs and arrays of one such part, and an address otherwise. SpecWord.v says what reflect knows about the types and what words mean (`program`), and that the dynamic types in a value have encoders (`ready`). Induction on the fuel of ModelEnc.v's encoder (WordFacts.v) shows that the two agree, so C27 and C41 carry over to the encoders that concurrent goroutines have put in the caches. One state of the caches is used for the whole call: by C35_enc_published an encoder found earlier is still the same. Only results are carried over, not panics. ModelEnc.v takes only predeclared uint8 for bytes, so user-defined byte types without methods are excluded (`pr_bytes`).
- **C43** The decoders in the cache do what the per-type decoders do: ModelLink.v applies the decoder structs that ModelCache.v builds (which refer to each other); ReadVal finds the decoders of the dynamic types of interfaces in the published cache, and a decoder that is missing there is nil and panics. SpecLink.v says what reflect knows about the pointer types (`dprogram`), and that the dynamic types in a value have decoders (`dready`). LinkFacts.v orders computations by 'the same result unless the nesting fuel ended' and shows by induction on the fuel that the two agree in both directions, so C26 carries over to the decoders that concurrent goroutines have put in the cache (C43_unmarshal, C43_reader), and C03 excludes nil decoders (C43_no_panic). Excluded (`dp_pointers`) are named pointer types to types with UnmarshalJSON or UnmarshalText, json.Number and json.RawMessage, which ModelVal.v simplifies.
- **C44** Byte slices in memory: ModelMem.v has arrays, slices as windows on them, append that writes in place or moves, and one operation for each access of the code to the slices of iterators and streamers. MemInv.v gives every array an owner (the buffer or the temporary buffer of an iterator, a streamer, a caller) and shows that every operation keeps this; SpecMem.v says the same without owners (`apart`) and names what an operation may change. MemProg.v shows that every reading function of ModelSkip.v to ModelVal.v, Unmarshal included, is a program of the accesses in `prog`, and MemRun.v that such programs give the same results in memory as on values, so the other theorems hold for slices that share arrays. The second iterator of a quoted string and the encoders are outside of this part; the buffer of a streamer is covered operation by operation (C44_stream).
- **C45** Calls of the library do not influence each other: ModelPool.v has a heap of objects, a pool and users who hold references to objects; a history is any sequence of steps of the users (get, call, release) and of removals by the garbage collector. It is instantiated with the iterators (Unmarshal, UnmarshalFromReader, Valid, Decoders, programs of reads) and the streamers (Marshal, Encoders, sequences of calls). SpecPool.v defines what a user sees alone (`solo`: fresh objects, no pool) and `careful` (no use after Release). PoolFacts.v has an invariant that says who holds which object and that each object agrees with the one of the lonely user, up to what `sim` allows to differ (leftover buffers). Calls are atomic steps; the bytes around the position in error texts, Buffered and InputOffset after an error are not results; objects borrowed inside a call (quoted strings, nested Marshal) are fresh.
- **C46** The output is UTF-8 and safe in HTML: SpecTyped.v defines `tidy` texts, the values that a variable of a type can hold (`typed`, `sound`) and the texts that a value carries as JSON by itself (`carries`). TidyFacts.v proves by induction on the depth that every encoder only appends points that are tidy (`grows`), also when it fails; C46_encoder follows the data through Flush to the writer. The texts carried are a hypothesis; without it the claim is refuted (C46_raw_refuted).
- **C47** Decoding keeps the types of variables: `decodes_typed` (TypedFacts.v), by induction on the decoding relation that C26 proves equal to the code, with the paths of struct fields (`route`) followed through the layout.
- **C48** Untyped JSON can be copied: SpecRound.v defines what a generic decode stores (`stored`) and floats that are read back (`float_stable`). RoundFacts.v proves by induction on the grammar that the values for accepted texts are `stored`, with strings that are UTF-8 if the input is (parts of UTF-8 texts between ASCII bytes are UTF-8), and that these values fit C27 and C25. Without UTF-8 the second half is refuted (C48_utf8_refuted).
- **C49** An Encoder and a Decoder transport any sequence of values: from Value_ok (C27) for each value, the flushes of encoder.go for each line, and C24_session for the stream of lines; the values satisfy `keeps` as in C25.
- **C50** Decoding always ends: the model's nesting fuel gives `errDepth` where the code would recurse on, and a decoder that is given a value of another type gives `errType` where the code would misread memory. C50 says that with enough fuel neither happens. SpecProgress.v has the condition on named types (`grounded`: pointers and names at the front of a type come to an end; `type P *P` is refuted by C50_self_refuted). NeverFacts.v shows that the readers of the iterator give neither error; ProgressFacts.v proves by induction on the length of the input, then on the type's front and the value, that each decoder settles on one result as fuel grows (Theorem progress). C50_unmarshal combines this with C26 and C47: Unmarshal is a decision procedure for `decodes`.
- **C51** Encoding ends: the model's encoders give `SBad` where the code would recurse on (no fuel) or misread memory (value of another type), and `SPanic` where it would panic. C51 says that neither happens with enough fuel for values that are typed, have no hazard and no cycle. SpecHazard.v lists the hazards (`hazard`, an inductive predicate on types and values, independent of the encoders) and says what a cycle is (`no_cycles`: taking user-defined types apart is well-founded). EncEnds.v: induction on the size of the value within the well-founded induction on user-defined states. EncMono.v: what is written with some fuel is written with more (C51_fuel), so the result is unique. C51_hazard_ex has one panicking value per kind of hazard; C51_chain_ex treats linked lists of every length.
- **C52** What a failed decoding leaves in the variable: ModelPart.v has the decoders again as programs that read and write a variable in memory (`V`: every store is a step, and what was stored before an error stays). PartAgree.v: they give the results of the decoders of ModelVal.v (C52_agrees). SpecPart.v says which value is left (`leaves`, `leftover`), in terms of `decodes` (which text is a value for a variable) and of where a text ends, without the decoders. PartFacts.v: after a genuine error of a clean iterator the variable holds such a value (induction on the nesting fuel, with the loops over elements, entries and members). PartUnique.v: there is at most one (C52_unique). PartTyped.v: it is of the type of the variable. C52_total puts these together with C50: from some fuel on, Unmarshal leaves one value, whatever the fuel. Not covered: iterators over readers that return an error together with data (`dirty`), for which the position of the error is not determined (finding C02).
- **C53** No call of the reader beyond a complete value: SpecPrompt.v says that bytes arrive one by one (`arrives`, in terms of single Read calls) and when a text is seen to be complete (`complete`: a number needs the byte after it).
  PromptStep.v: a function on an iterator whose reader fails after these bytes, and the same function on one whose reader goes on, do the same as long as the failure has not been seen (`fol`, for every reading function of the model, by composition; the loops have different fuel on both sides).
  With C02 and the grammar theorems (C05, C07, C26) for the failing reader: C53_program (client programs), C53_typed (ReadVal, errors included), C53_skip, C53_read, C53_readval, C53_decoder (a queue of values in the buffer), C53_more. A call of the reader would change its state, since `arrives` and the theorems hold for readers with any script.
  C53_number_refuted: not for a number at the end of the buffer. Print Assumptions: closed for all.
- **C54** The options of a decoder: SpecOption.v says when two values differ only in the numbers held by interfaces (`renumbered`, a congruence over all kinds of values) and when ParseFloat accepts all numbers of a text (`in_float_range`).
  OptionStep.v: the pure decoders with and without DisallowUnknownFields agree on every input, the error included, unless the first one refuses a member (`agree`, by composition over all decoders). OptionFacts.v: one induction over `decodes` for two settings of all options (`options_all`), with the lookup of C29 with and without CaseSensitive (`findField_exact`).
  C54_disallow, C54_disallow_accepts, C54_disallow_readval (also what is left of the input), C54_number, C54_float, C54_case, C54_strict. C54_case_refuted: CaseSensitive is not a restriction if unknown members are allowed. C54_float_refuted: the condition on ParseFloat is needed. Print Assumptions: closed for all.
- **C55** Read and its memory: ModelNode.v has Read on a memory of cells (a map or an array), slices as windows on arrays, append in place or in a new array of any larger capacity, and the node stack of node.go with the entries behind its length. SpecNode.v says what a word of the memory stands for and which cells it is made of (`holds`), and what others may do to the memory between calls (`after`).
  NodeFacts.v: the operations of the node stack keep the invariant that the cells of all nodes are new and different (`inloop`). NodeRead.v: the loops end as those of ModelRead.v (`follows`, induction over the fuel, with the bit stack of C01).
  C55_read (same value or error as Read, new cells, old memory unchanged), C55_lasting and C55_results (sequences of calls and writes), C55_parts (writes to one part of a result). C55_forget_refuted: the pool keeps references to the result. Print Assumptions: closed for all.
- **C56** Size of the read buffer: no new model. SpecKeep.v says which calls and types need no raw text (`calmly`, `still`). KeepFacts.v proves for every function of the iterator and every decoder that the flags stay, that the buffers grow at most by the bytes read, and that they keep their size if nothing is captured (`sized`); loops by induction over their fuel, client programs by induction.
  C56_steady, C56_typed, C56_decoder (same size), C56_linear, C56_linear_typed (bound for everything). C56_growth_refuted (induction over the number of values) and C56_shrink_refuted: see the findings. The sizes are lengths of slices; the capacity that append leaves is not modelled.
  C56_flag_refuted: the capture flag is not always restored, see the findings; the theorems speak of iterators whose flag is off. Print Assumptions: closed for all.
- **C57** Cut off or wrong: no new model. SpecCut.v defines by the grammar alone when a text is cut off (`cut`: no value stands at its start, but some continuation is a JSON text) and when a byte is the first wrong one (`wrong u c`: u is cut off, and no continuation of u followed by c starts with a value), and what a result tells about them (`tells`).
  CutFacts.v proves for each pure function that what it accepts depends on one byte beyond the value only, that its other errors name the byte at which the prefix stops being cut off (`good`), and that a cut-off prefix has a completion (`cp`); CutMachine.v lifts this to nested containers by induction over the input. CutRead.v relates Read to Skip (`echo`): same rest, same end error, same byte. C57_kinds (the three kinds are exhaustive and exclude each other, the place is unique), C57_calls, C57_read, C57_readval, C57_unmarshal; C57_decoder_refuted: see the findings.
  Not covered: decoders of other types, whose errors also depend on the type. Print Assumptions: closed for all.
- **C58** The error of the end with typed targets: no new model. SpecEnd.v says for which types it is claimed (`meant`, a condition on the types reachable from the target: no maps, no booleans below the option string, methods of user-defined types that do not return io.EOF or reader failures themselves) and for which old values (`tame`: no interface holds a pointer, else its type would be decoded into too).
  CutTyped.v proves for the loops over arrays and objects, strings and integers that the error of the end implies `cut` and that a success leaves a value before the rest (`told`); a completion of the outer text is built from the completion of the element or member that the input ends in. CutVal.v does this for every decoder by induction on the nesting (clear_decode). C58_readval, C58_unmarshal, C58_reader, C58_decode, C58_calls (every iterator call but ReadArrayMore and ReadObjectMore, which do not start at a value); C58_map_refuted and C58_quoted_refuted show that the two restrictions are needed.
  The converse does not hold for typed targets: a cut-off text may already have a value of the wrong type. Print Assumptions: closed for all.
- **C59** Spelling: no new model. SpecSpell.v defines when two texts differ in their spelling only (`alike loose`, by the grammar of Spec.v: white space; with `loose` also escape sequences), the types that cannot see it (`blind`, a condition on the types reachable from the target) and the old values it is claimed for (`held`).
  TreeFacts.v runs the container machine of Machine.v with trees as results and obtains that a text has one value only (C59_unambiguous), hence that `alike_texts true` is the same as having one JSON value (C59_alike). SpellFacts.v proves for the loops over arrays and objects that they agree on alike texts if their elements do (`agree`: same value, and the same part of the input left); SpellVal.v does this for every decoder by induction on the nesting (spell_decode). C59_readval, C59_unmarshal, C59_reader, C59_value; C59_escapes_refuted and C59_raw_refuted show that the restrictions are needed.
  It is claimed for successes; the errors of two refused texts may differ (they name the byte that was met). Print Assumptions: closed for all.
- **C60** Order of members: no new model. SpecOrder.v defines reorderings of JSON values (`shuffled`: exchanges of neighbouring members with names that never stand for the same field, in any objects of the value), equality of Go values up to the order of map entries (`same`), and the types it is claimed for (`orderless`, on top of `blind` of C59).
  OrderFacts.v: the texts of the elements and members that a decoder has taken are the texts of the grammar (a text that a `blind` type accepts can only be read as a whole, by C59). OrderVal.v: two fields that are apart can be decoded in either order with the same result (at_swap), two entries of a map as well (entries_swap); then by induction on the derivation of `decodes` (order_decodes). With C26 this gives C60_unmarshal, C60_reader, C60_accepted; C60_differ, C60_differ_exact and C60_permutation reduce `shuffled` to permutations of names that differ (C60_object, C60_object_exact).
  SpecFields.v and Properties33.v: C60_fields and C60_fields_reader, for structs with fields of any types (`recordT`); the texts of the members are kept and only their order changes (`moved`), at the outermost level, and the value is exactly the same.
  The fields that describeStruct (C30) finds have different names and never overlap (C30_names, C60_described). C60_names_refuted and C60_error_refuted show what the restrictions are for. Print Assumptions: closed for all.
- **C61** Compact output: no new model. `encodes` (SpecEnc.v) now fixes the text of arrays and objects (`array_of`, `object_of`: elements with single commas and colons between them), where it allowed any white space before; C27, C37 and C42 became stronger by this. SpecCompact.v defines `squeeze`, which removes the white space outside strings byte by byte, and `inserted`, the texts that a value contributes as they are.
  CompactFacts.v: squeezing a JSON value leaves what follows it alone and yields a text that differs in white space only (squeeze_value, induction on the grammar); texts that differ in white space only squeeze to the same (alike_squeeze); every text of `encodes` is fixed by `squeeze` (encodes_tight, mutual induction), and so is what a tree of streamer calls writes (tree_tight). Properties28.v: C61_marshal, C61_value, C61_shortest, C61_calls, C61_squeeze, C61_unmarshal (with C59), C61_inserted_refuted. Print Assumptions: closed for all.
- **C62** Decoding twice: no new model. SpecAgain.v defines `single`, the JSON values in which no object has two names that may stand for one field (`differ` of SpecOrder.v), and `steady`, sets of types that are closed under their parts and whose struct fields do not overlap; no kind of type is left out. AgainWhole.v proves that every text that can be decoded, into any type, can be read as a JSON value in one way only (whole_decodes, mutual induction; also for the quoted booleans with control characters, which are not JSON). AgainVal.v proves that `decodes T o old t v` implies `decodes T o v t v` (again_decodes, mutual induction): putting the same entries into a map again gives the same map, duplicates included (puts_again), and a field that is left as it is stays so when fields apart from it are decoded (at_fixed, members_fixed).
  Properties29.v: C62_unmarshal, C62_reader, C62_refresh (types of C60: another order of the members), C62_distinct (CaseSensitive: all names different), C62_folded (default: no two names equal under case folding), C62_twice_refuted, C62_text_refuted, C62_json_refuted. Print Assumptions: closed for all.
- **C63** Reformatting: no new model; C25 (round trip), C27 (the text is JSON), C59 (spelling) and C60 (order) taken together. Properties30.v: C63_injective (values that are restored and have the same text are equal), C63_respelled, C63_reordered, C63_bytes_refuted (two strings that are not UTF-8 have one text), C63_raw_refuted. Print Assumptions: closed for all.
- **C64** Objects in parts: no new model. SpecPatch.v defines `object_doc`, the documents that are an object with given texts of its members, and `patched`, the types meant. PatchVal.v proves that the texts of the members are determined by the document (object_same, with whole_decodes of C62) and that decoding a concatenation is decoding its parts in turn (members_app, entries_app, patch_decodes).
  Properties31.v: C64_unmarshal (both directions), C64_reader, C64_members (cut into single members), C64_iface_refuted. Print Assumptions: closed for all.
- **C65** Now or later: no new model. FirmFacts.v proves that a text that can be decoded into any type is a number, or no JSON value begins like it and is longer or shorter (firm_decodes), and compares the rests that ReadVal and Skip leave (in_step).
  Properties32.v: C65_skip, C65_exact (a separator follows), C65_texts (not a number), C65_decode (Decoder), C65_later and C65_now (raw text and Unmarshal), C65_number_refuted. Print Assumptions: closed for all.

## 4. Trusted base

- The Coq kernel, including `vm_compute` (finite sweeps over bytes and table entries, and the
  examples).
- The reading of the Go sources recorded in the comments of the model files. The code is not
  run or translated automatically.
- No axioms. `Print Assumptions` ends every `Properties*.v` file; its output for each
  theorem named in MANIFEST.json is "Closed under the global context".
- Functions of the Go standard library that are arguments of the model, with the facts assumed
  of them as hypotheses of the theorems (each met by an instance in the Properties files):
  - `strconv.ParseFloat`: `float_sane` (SpecRead.v, FloatFacts.v); for C48 also `float_stable` (SpecRound.v:
    floats read from JSON are finite, and ParseFloat reads what AppendFloat writes).
  - `unicode.SimpleFold`: `folding` and `walks` (SpecFold.v: its orbits are cycles that contain
    the case variants, ASCII letters fold to each other and to the two known non-ASCII letters).
  - `unicode.IsLetter`, `unicode.IsDigit`: arbitrary functions.
  - `sort.Slice`, `sort.Sort`: `sorts` (SpecStruct.v: a permutation without descents if the
    comparison is a strict weak order).
  - `strconv.AppendFloat`, the float comparisons, IsInf, IsNaN: `fmt_sane` (StreamFacts.v).
- Standard library functions modelled by a definition: `utf8.DecodeRuneInString`,
  `utf16.DecodeRune`, `utf8.EncodeRune`.

Modelled code:

| Model file | Code |
|---|---|
| ModelIter.v, Base.v | iterator.go (fields, reset, readMore, nextByte, nextToken, offsets), errors_decoder.go |
| ModelStack.v | stack.go |
| ModelSkip.v | iterator_skip*.go, Valid |
| ModelStr.v | iterator_str.go |
| ModelInt.v | iterator_int.go, iterator_int8.go, iterator_int16.go, iterator_int32.go, iterator_int64.go (signed and unsigned) |
| ModelFloat.v | iterator_float.go |
| ModelRead.v | iterator_read.go, iterator_raw.go, iterator_number.go |
| ModelNode.v | node.go, iterator_read*.go with the maps and arrays as cells of a memory |
| ModelIterate.v | iterator_array.go, iterator_object.go |
| ModelOps.v | client programs over the operations, WrapError, pool reuse |
| ModelStream.v | streamer.go, streamer_int.go, streamer_str.go, streamer_float.go, encoder.go |
| ModelTag.v | struct_tag.go |
| ModelStruct.v | struct.go, struct_field.go |
| ModelFold.v | struct_field_fold.go, struct_field_upper.go, the find methods of the three struct decoders |
| ModelGrow.v | link_reflect.go (slice making and growing), the element assignment of the slice decoder |
| ModelBase64.v | base64.StdEncoding of the standard library (Encode, DecodeString) |
| ModelEface.v | val_decoder_native_interface.go (interface{}) and val_decoder_native_ptr.go on a memory with addresses |
| ModelCache.v, ModelEncCache.v | the caches and the builds in decoder_config.go and encoder_config.go, type_queue.go |
| ModelWord.v | the encoders of ModelEncCache.v applied to data words: streamer_val.go, val_encoder_direct.go, packEFace in eface.go |
| ModelLink.v | the decoders of ModelCache.v applied to variables: iterator_val.go, unmarshal in iterator.go, the references between decoder structs |
| ModelMem.v | the slices of iterator.go, iterator_pool.go, iterator_raw.go, iterator_str.go, streamer.go, streamer_pool.go, streamer_float.go and Marshal in encoder_config.go as windows on arrays |
| ModelPool.v | iterator_pool.go, streamer_pool.go, Release in iterator.go, streamer.go, decoder.go and encoder.go, borrowing and returning in Marshal, Unmarshal, UnmarshalFromReader, Valid, NewDecoder, NewEncoder |
| ModelVal.v | val_decoder*.go, iterator_val.go, the choice of the decoder in decoder_config.go, Unmarshal and UnmarshalFromReader in iterator.go |
| ModelPart.v | the same decoders with the stores into the variable; what a failing UnmarshalJSON or UnmarshalText leaves in its receiver is a parameter |
| ModelDecoder.v | decoder.go |
| ModelEnc.v | val_encoder*.go, is_empty.go, streamer_val.go, the choice of the encoder and Marshal in encoder_config.go |

Not modelled: unsafe and reflect code below the level described in the model comments, the inside of
sync.Pool (Get returns any object in it or a new one, objects can vanish), memory exhaustion,
Context fields, what user callbacks do to the library.

## 5. Findings

Properties that the code does not have, each with a proved refutation:

- **Eight bit integers stop after three digits** (C10_uint8_refuted, C11_int8_refuted).
  ReadUint8 and ReadInt8 return 123 on `1234` and leave the `4` unread; all other widths read
  the whole token or fail.
- **Bytes that arrive together with an error are dropped** (C02_dirty_refuted). If a reader
  returns n > 0 bytes with an error other than io.EOF, as the io.Reader contract allows, the
  iterator reports the error without looking at the bytes; the result therefore depends on the
  chunking. C02_dirty states what does hold.
- **One-field structs compare names the other way round** (C29_one_refuted). The decoder for
  structs with one field calls the folding comparison with the field name and the key swapped.
  The comparison is only correct when its second argument is the field name it was built for, so
  a key can match in a struct with one field and not match in a struct with two. C29_one states
  when the answer is still right.
- **The empty option** (C31_contains_refuted). tagOptions.Contains("") is false for `a,`
  although the list of options contains an empty one. Not reachable from the library, which only
  asks for non-empty names (C31_contains is exact for those).
- **A map key may be null** (C26_key_refuted). The key decoders accept the bare word null as a
  key, so `{null:1}` is accepted for a map target.
- **Blanks inside a quoted boolean** (C26_bool_refuted). With the string option a boolean field
  accepts a quoted text with white space, even a raw line feed, before the boolean.
- **A stream of numbers is split inside a number** (C24_integer_refuted). Decoding the stream
  `1.5` into an int returns 1 without an error; the next call fails.
- **The empty struct** (C28_unknown_refuted). With DisallowUnknownFields a struct without
  fields reports an unexpected byte instead of the unknown field.
- **A nil json.RawMessage is encoded as nothing** (C27_rawmessage_refuted), so Marshal returns an
  empty text, and a struct with such a field is encoded as `{"f":}`.
- **A nil pointer to encoding.TextMarshaler panics** (C27_textmarshaler_refuted). The encoder of
  json.Marshaler checks for a nil pointer, that of encoding.TextMarshaler does not.
- **A struct without JSON fields may be null** (C27_nilword_refuted). If the only variable of the
  struct is a nil pointer or map, the interface word is nil and Marshal writes `null` instead of `{}`.
- **Named pointer types** (C27_named_pointer_refuted). For `type P *T` where only *T has MarshalJSON
  or MarshalText, the values of type P are encoded without calling the method.
- **Interface types that include MarshalJSON or MarshalText** (C27_interface_refuted), other than
  json.Marshaler and encoding.TextMarshaler: Marshal panics for variables of such a type, nil ones
  too, because the encoder builds an interface value whose dynamic type is an interface type.
- **Map keys of pointer-like types** (C27_key_word_refuted). For a key type that is no pointer but has the
  memory of one, like `struct{ p *X }`, a nil word is written as the empty string without a call of
  MarshalText. For pointer keys encoding/json does the same (see `fk_nil`).
- **Map keys of interface types** (C27_key_interface_refuted). Marshal of a `map[I]V` panics if I is an
  interface type that includes MarshalText, encoding.TextMarshaler itself included.
- **omitempty and maps without key encoder** (C37_map_refuted). An empty or nil map whose key type is not
  supported is not omitted; Marshal returns an error.
- **omitempty and types with methods** (C37_string_refuted, C37_method_refuted). For a string type with
  MarshalJSON or MarshalText of the value type the table of emptiness tests has no entry and the
  encoder calls a nil function. Types with methods of the pointer type, and empty arrays with
  methods, are never omitted.
- **omitempty and structs without fields** (C37_struct_refuted). They are omitted, encoding/json
  never omits structs.
- **Ambiguity behind a struct embedded twice** (C30_ambiguous_refuted). With S{A;B}, A{T}, B{T},
  T{U}, U{X} the field X can be reached in two ways of equal depth, but it is reported. Only the
  fields of T itself are counted twice, not those of the structs embedded in T. encoding/json has
  the same behaviour.
- **Cycles that do not contain the first interface** (C36_rho_refuted). With `b = &b; a = &b`,
  decoding into a recurses for ever (stack overflow). The loop check compares only with the first
  interface met at a position. With a blank before the value the same cycle is reported
  (C36_rho_blank), because the position changes after the first interface.
- **Cycles of pointers** (C36_pointer_refuted, C36_type_refuted, C50_self_refuted). For `type P *P` there is no loop
  check: a pointer to itself, and even a nil pointer, make the decoder recurse for ever on any
  value except null.
- **ErrEfaceLooping without a loop** (C36_retry_refuted). A second ReadVal into the same interface
  at the same position, after the first one failed with io.EOF, reports a loop.
- **Custom encoders of pointer-shaped types** (C42_custom_refuted). NewEncoderConfig puts a ValEncoder
  of the user in both caches. For a map or pointer type it is called with the data word if the value
  is passed to Marshal or is in an interface, but with the address of the variable if the value
  is in a struct, slice, or behind a pointer, and cannot tell which. The built-in encoders
  are wrapped in directEncoder for the first case.
- **A second Release shares the object** (C45_double_release_refuted). Release of an Iterator or
  Streamer that was released before puts it into the pool again without an error. Two later users
  then get the same object, and one of them reads the data of the other.
- **Error locations depend on earlier calls** (C45_location_refuted). The bytes around the position
  in the error of UnmarshalFromReader are those that the buffer still has; the size of the buffer
  is inherited from the earlier users of the iterator.
- **Raw texts are not escaped** (C46_raw_refuted). With HTML escaping on, the texts of MarshalJSON methods,
  json.RawMessage and json.Number are written as they are; encoding/json escapes the first two.
- **json.Number is not checked** (C27_number_refuted). A json.Number that is no number is written
  unchecked: the text `1,"admin":true` in a field makes an object with another member. encoding/json
  returns an error.
- **Invalid UTF-8 survives decoding but not encoding** (C48_utf8_refuted). Strings with bytes that are not
  UTF-8 are accepted and kept as they are (encoding/json replaces them when it decodes); the encoder replaces them
  by U+FFFD, so that copying a text changes it.
- **Circular data** (C51_cycle_refuted). Marshal of a linked list with `x.Next = x` follows the pointers until the
  stack overflows, which cannot be recovered; encoding/json returns an error.
- **A failed Unmarshal changes the variable** (C52_restore_refuted). `Unmarshal([]byte("[1,"), &a)` with `a == [2]int8{7,8}`
  leaves `[1 8]`; also for texts that are not JSON, and if only trailing data is wrong. encoding/json checks the
  syntax of the whole text first and leaves the variable alone then.
- **A number at the end of the buffer waits for the next byte** (C53_number_refuted). Inherent in JSON streams: the text `12`
  may go on with `3`. A peer that sends a number must send a separator after it.
- **CaseSensitive is not a restriction** (C54_case_refuted). A member that differs in case from a field is ignored with
  CaseSensitive and decoded into the field without it. Only together with DisallowUnknownFields it is a restriction (C54_case).
- **The node stack in the pool keeps results alive** (C55_forget_refuted). releaseNodeStack cuts the length of the stack
  and leaves the entries, which refer to maps and arrays of the result. Nobody writes through them (C55_read), but the
  memory of a large result is held until the entries are overwritten.
- **Raw values make the read buffer grow without bound** (C56_growth_refuted). A refill in capture mode (iterator.go:151-157)
  appends behind buffer[:tail] and never drops the bytes of values that are already read; the buffer starts again only at a
  refill outside capture mode. If each value is cut by a chunk boundary, as with two-byte values that arrive two bytes at a
  time, no such refill happens, and after n values of two bytes the buffer holds more than 2n bytes. The same holds for
  json.RawMessage, UnmarshalJSON, json.Number and []byte in a Decoder, which all capture.
- **A raw value can make the read buffer small** (C56_shrink_refuted). `append(it.buffer[:it.tail], ...)` cuts the buffer to the
  bytes in it. After a two-byte value that arrived in two chunks the buffer has length 2, and every later refill asks the
  reader for two bytes until the next capture or Reset.
- **A failed []byte leaves the iterator in capture mode** (C56_flag_refuted). The decoder of []byte sets the capture flag and
  returns the error of skipString without restoring it (val_decoder_native_slice.go:60-64). A client that carries on with the
  same iterator, as Decoder users can not but Iterator users can, has the whole rest of the input appended to the buffer until
  the next Reset, also by Skip and the other calls that otherwise leave the buffer as it is.
- **io.EOF of a Decoder does not mean a complete input** (C57_decoder_refuted). Decode returns io.EOF both when the input ends
  between two values and when it ends inside a value (encoding/json returns io.ErrUnexpectedEOF in the second case). A loop that
  decodes until io.EOF takes a truncated input for a complete one; only a call of More before each Decode tells the two apart.
- **io.EOF for inputs that are wrong, not short** (C58_map_refuted, C58_quoted_refuted). Consequences of two findings above: a map
  target reports `{nu` as cut off (the key decoders take null), and a boolean with the option string reports a quote followed by a
  line feed and `tr` as cut off, although no JSON text begins like this. A client that waits for more data at io.EOF waits in vain.
- **Escape sequences are refused where text between quotes is not read as a string** (C59_escapes_refuted). `"\/\/\/\/"` and
  `"////"` are the same JSON string, but only the second is taken by []byte (encoding/json takes both; PHP writes the first).
  The same holds for json.Number in quotes, for the option string on numbers and booleans, and for integer map keys.
- **Where the order of members matters** (C60_names_refuted, C60_error_refuted): if a name is given twice, the last one counts; names
  equal under case folding, and "0" and "-0" as keys of maps with integer keys, count as the same name. Of several errors the first is reported.
  encoding/json behaves in the same way.
- **White space from RawMessage and MarshalJSON** (C61_inserted_refuted): json.RawMessage("[ 1 ]"), and a MarshalJSON method that returns
  this text, are encoded as "[ 1 ]" (val_encoder_json_rawmessage.go, val_encoder_json_marshaler.go). encoding/json writes "[1]".
- **A text that is accepted only once** (C62_twice_refuted): decoding {"i":5,"i":null} into struct { I fmt.Stringer `json:"i"` } whose field holds a
  pointer succeeds and leaves the field nil, so decoding the text again fails. encoding/json does the same.
