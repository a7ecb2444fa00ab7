{"id": "C01", "title": "Instruction encode/decode round trip", "statement": "Encoding an instruction with Instruction.Marshal and decoding the bytes with Instruction.Unmarshal (same byte order, native platform) yields an instruction with the same opcode, registers, offset and constant, provided the instruction is representable on the wire (registers < 16, constant fits the immediate of its opcode, ALU offset zero, atomic constant equal to the atomic operation).", "quantifier": "every representable instruction and both byte orders", "why_tests_cant": "The instruction space (opcode x registers x 16 bit offset x 64 bit constant x byte order) is far too large to enumerate and the special cases (extended ALU, atomics, double-wide loads, helper calls) interact.", "anchors": ["asm/instruction.go:Instruction.Marshal", "asm/instruction.go:Instruction.Unmarshal", "asm/instruction.go:newBPFRegisters", "asm/opcode.go:OpCode.bpfOpCode"]}
{"id": "C02", "title": "Decode/encode round trip on raw bytes", "statement": "Decoding the bytes of a valid raw instruction and re-encoding the result reproduces exactly the same bytes, so that a program dumped from the kernel can be re-loaded unchanged; the one class of inputs for which this fails (ALU instructions with an offset the decoder does not interpret) is identified.", "quantifier": "every 8 or 16 byte raw instruction and both byte orders", "why_tests_cant": "2^64 raw encodings; tests use a handful of instruction literals.", "anchors": ["asm/instruction.go:Instruction.Marshal", "asm/instruction.go:Instruction.Unmarshal"]}
{"id": "C03", "title": "Encoded size equals Size()", "statement": "A successful Instruction.Marshal writes exactly Instruction.Size() bytes and reports that number; Instructions.Marshal writes exactly Instructions.Size() bytes; a failed encode reports an error instead of a short instruction.", "quantifier": "every instruction, every instruction stream, both byte orders", "why_tests_cant": "Must hold for every stream, including ones with double-wide loads at arbitrary positions.", "anchors": ["asm/instruction.go:Instruction.Size", "asm/instruction.go:Instructions.Size", "asm/instruction.go:Instructions.Marshal"]}
{"id": "C04", "title": "Instruction stream decoding", "statement": "AppendInstructions inverts the encoding of every stream of representable instructions, consumes all the input, and never accepts trailing garbage: input which is not a whole number of instructions (or ends in the middle of a double-wide load) is an error, never a silently truncated program.", "quantifier": "every byte string and every instruction stream", "why_tests_cant": "Truncation points and double-wide alignment can occur at every offset of every stream.", "anchors": ["asm/instruction.go:AppendInstructions", "asm/instruction.go:Instruction.Unmarshal"]}
{"id": "C05", "title": "OpCode accessors obey get/set laws", "statement": "For each OpCode setter (SetMode, SetSize, SetAtomicOp, SetSource, SetALUOp, SetJumpOp): on an opcode of the right class and an in-range argument the corresponding getter returns the value set and all other fields including the class are unchanged; otherwise InvalidOpCode is returned.", "quantifier": "every opcode and every argument value", "why_tests_cant": "The opcode is a 32 bit bitfield with overlapping, class dependent layouts.", "anchors": ["asm/opcode.go:OpCode.SetMode", "asm/opcode.go:OpCode.SetSize", "asm/opcode.go:OpCode.SetAtomicOp", "asm/opcode.go:OpCode.SetSource", "asm/opcode.go:OpCode.SetALUOp", "asm/opcode.go:OpCode.SetJumpOp"]}
{"id": "C06", "title": "Atomic constructors keep their operation when encoded", "statement": "An atomic instruction built with AtomicOp.Mem / LoadAcquire / StoreRelease encodes so that the immediate field of the wire instruction is the requested atomic operation (and so decodes back to it).", "quantifier": "every atomic operation, register pair, size, offset and byte order", "why_tests_cant": "Existing tests only encode atomics which were previously decoded, in which case the constant already carries the operation.", "anchors": ["asm/load_store.go:AtomicOp.Mem", "asm/load_store.go:AtomicOp.OpCode", "asm/load_store.go:LoadAcquire", "asm/load_store.go:StoreRelease", "asm/instruction.go:Instruction.Marshal"]}
{"id": "C07", "title": "Symbolic jumps and calls land on their symbol", "statement": "After Instructions.Marshal resolved references, every jump/call/function-pointer load that referenced a symbol has a displacement such that (raw offset of the instruction) + 1 + displacement is the raw offset of the instruction carrying that symbol, accounting for double-wide instructions; instructions that are not pending references are unchanged; unknown or duplicate symbols are errors. Displacements that do not fit the 16 bit field are where the guarantee ends.", "quantifier": "every instruction stream, any number of symbols, references and double-wide loads", "why_tests_cant": "Correctness depends on the sum of widths of all instructions in between; tests use short literal programs.", "anchors": ["asm/instruction.go:Instructions.encodeFunctionReferences", "asm/instruction.go:InstructionIterator.Next", "asm/jump.go:JumpOp.Label", "asm/jump.go:LongJump"]}
{"id": "C08", "title": "Map fd and offset packing are independent", "statement": "Encoding a map fd into a map load preserves the value offset in the upper half, RewriteMapOffset preserves the fd in the lower half, both are read back exactly, and a map with a closed (negative) fd makes encoding fail; instructions which are not map loads are never modified.", "quantifier": "every fd, offset, constant and instruction stream", "why_tests_cant": "Bit packing over the full 64 bit constant.", "anchors": ["asm/instruction.go:Instruction.encodeMapFD", "asm/instruction.go:Instruction.RewriteMapOffset", "asm/instruction.go:Instruction.mapFd", "asm/instruction.go:Instruction.mapOffset", "asm/instruction.go:Instructions.encodeMapPointers", "asm/load_store.go:LoadMapValue"]}
{"id": "C09", "title": "Program tag ignores map identity", "statement": "The byte stream hashed by Instructions.Tag/HasTag is the encoding of the program with the constants of map loads zeroed: two programs that differ only in map fds/offsets have equal tags under any hash function, and programs without map loads are hashed as their plain encoding.", "quantifier": "every instruction stream, any hash function, both byte orders", "why_tests_cant": "Quantifies over all programs and over the hash function.", "anchors": ["asm/instruction.go:Instructions.hash", "asm/instruction.go:Instructions.Tag", "asm/instruction.go:Instructions.HasTag"]}
{"id": "C10", "title": "Iterator offsets are raw offsets", "statement": "InstructionIterator visits every instruction exactly once in order with Index equal to the position and Offset equal to the sum of the widths of all preceding instructions.", "quantifier": "every instruction stream", "why_tests_cant": "Inductive over stream length.", "anchors": ["asm/instruction.go:InstructionIterator.Next", "asm/instruction.go:Instruction.Width"]}
{"id": "C11", "title": "AssociateMap updates exactly the references to a symbol", "statement": "Instructions.AssociateMap(sym, m) succeeds iff sym is non-empty, is referenced, and all its references are map loads; on success every instruction referencing sym carries m and no longer references sym, and all other instructions are unchanged.", "quantifier": "every instruction stream and symbol", "why_tests_cant": "All-and-only property over arbitrary streams.", "anchors": ["asm/instruction.go:Instructions.AssociateMap", "asm/instruction.go:Instruction.AssociateMap"]}
{"id": "C12", "title": "Symbol and reference indexes are exact", "statement": "SymbolOffsets returns, for exactly the non-empty symbols, the unique index of the instruction carrying it, and errors iff a symbol is duplicated; ReferenceOffsets returns for each name exactly the increasing list of indices referencing it; FunctionReferences is the sorted duplicate-free list of pending bpf-to-bpf references.", "quantifier": "every instruction stream", "why_tests_cant": "Completeness and uniqueness over arbitrary streams.", "anchors": ["asm/instruction.go:Instructions.SymbolOffsets", "asm/instruction.go:Instructions.ReferenceOffsets", "asm/instruction.go:Instructions.FunctionReferences"]}
{"id": "C13", "title": "Instruction metadata is a persistent map", "statement": "Metadata.Set/Get behave like a finite map (get after set returns the value, other keys unaffected, setting nil deletes, a no-op delete changes nothing), and a value copied before a Set is not affected by it.", "quantifier": "every sequence of Set operations on any set of aliased copies", "why_tests_cant": "Aliasing bugs depend on the history of copies and updates.", "anchors": ["asm/metadata.go:Metadata.Set", "asm/metadata.go:Metadata.Get"]}
{"id": "C14", "title": "Helper function constants are platform tagged injectively", "statement": "Encoding a (platform, number) pair into a BuiltinFunc constant and decoding it returns the same pair; numbers using the tag bits and unknown platforms are rejected; Marshal refuses helper calls for a foreign platform and writes the untagged number for the native one.", "quantifier": "every platform tag and every 32 bit number", "why_tests_cant": "Injectivity over 2^32 x tags.", "anchors": ["internal/platform/constants.go:EncodeConstant", "internal/platform/constants.go:DecodeConstant", "asm/func.go:BuiltinFuncForPlatform"]}
{"id": "C15", "title": "Ring buffer records are delivered exactly once, in order, unmodified", "statement": "For any sequence of records reserved by the kernel in a BPF ring buffer (committed or discarded, of any lengths, at any starting position and across any number of wrap-arounds), reading until the end of ring returns exactly the payloads of the committed records in order, skips the discarded ones and ends with the consumer position equal to the producer position.", "quantifier": "every record sequence, ring size, start position (including position counter wrap-around)", "why_tests_cant": "Wrap-around combinations of lengths and positions are unbounded.", "anchors": ["ringbuf/ring.go:ringReader.readSample", "ringbuf/ring.go:ringReader.commit", "ringbuf/reader.go:Reader.ReadInto"]}
{"id": "C16", "title": "Ring buffer reader never runs ahead of the producer", "statement": "Whatever bytes are in the ring, readSample never advances the local consumer position beyond the producer position, never advances it on error, never slices outside the mapped memory when the header length is at most the ring size, and the shared consumer position only changes on Commit.", "quantifier": "every ring content, producer/consumer position and sequence of reads and commits", "why_tests_cant": "Adversarial header contents and positions.", "anchors": ["ringbuf/ring.go:ringReader.readSample", "ringbuf/ring.go:ringReader.commit", "ringbuf/ring.go:ringReader.available"]}
{"id": "C17", "title": "Ring buffer memory is never unmapped during a lease", "statement": "Under every interleaving of WithLease and Close calls from any number of goroutines, at most one lease is active at a time, the ring memory is released at most once and never while a lease callback runs, and no lease starts after the memory was released; Close is idempotent.", "quantifier": "every interleaving of any number of WithLease and Close calls", "why_tests_cant": "Schedules cannot be enumerated by tests.", "anchors": ["ringbuf/raw_reader.go:RawReader.enter", "ringbuf/raw_reader.go:RawReader.leave", "ringbuf/raw_reader.go:RawReader.Close", "ringbuf/raw_reader.go:RawReader.WithLease"]}
{"id": "C18", "title": "Flush and deadline errors are reported only after the ring is drained", "statement": "When waiting is interrupted by a deadline or a flush, reads continue to return the samples left in the ring and the error is returned exactly once, and only when the ring is empty; afterwards reading continues normally.", "quantifier": "every sequence of produced samples, wake-ups, flushes and deadlines", "why_tests_cant": "Depends on the history of wake-ups relative to production.", "anchors": ["ringbuf/raw_reader.go:Lease.ReadSample", "perf/reader.go:Reader.ReadInto"]}
{"id": "C19", "title": "Perf ring byte stream is reassembled across wrap-around", "statement": "Reading a forward (non-overwritable) perf ring through io.ReadFull-style partial reads yields exactly the bytes between tail and head in order, for every chunking of the reads and every wrap position, and never reads past head; the tail published to the kernel never exceeds head.", "quantifier": "every ring content, head/tail, and every sequence of read sizes", "why_tests_cant": "Unbounded combinations of chunk sizes and wrap positions.", "anchors": ["perf/ring.go:forwardReader.Read", "perf/ring.go:forwardReader.loadHead", "perf/ring.go:forwardReader.writeTail"]}
{"id": "C20", "title": "Perf records are delivered in order with exact payload and loss counts", "statement": "For every sequence of SAMPLE and LOST records written to a perf ring, successive reads return the sample payloads and lost counts in order and then report the end of the ring; an unknown record type is reported as an unknown event error.", "quantifier": "every sequence of records, payload sizes and ring positions", "why_tests_cant": "Framing correctness is inductive over the record sequence.", "anchors": ["perf/reader.go:readRecord", "perf/reader.go:readLostRecords", "perf/reader.go:readRawSample", "perf/reader.go:Reader.readRecordFromRing"]}
{"id": "C21", "title": "Overwritable perf ring never returns a record twice", "statement": "For an overwritable (reverse) ring, a drain after loadHead returns bytes only from the region between the current head and the previous head, capped at the ring size: successive drains cover disjoint, contiguous parts of the stream and nothing older than the ring capacity is ever returned.", "quantifier": "every history of kernel writes and drains", "why_tests_cant": "Depends on the whole history of head positions including counter wrap-around.", "anchors": ["perf/ring.go:reverseReader.loadHead", "perf/ring.go:reverseReader.Read"]}
{"id": "C22", "title": "Perf buffer size is valid for the kernel", "statement": "The mmap size computed from a requested per-CPU buffer size is 1 + 2^n pages, holds at least the requested number of bytes, and is the smallest such size.", "quantifier": "every positive requested size and page size", "why_tests_cant": "All sizes; the code uses floating point logarithms whose exact result is modelled as a real logarithm.", "anchors": ["perf/ring.go:perfBufferSize"]}
{"id": "C23", "title": "Perf reader attaches each event to its own CPU", "statement": "After creating or resuming a perf reader, array slot c holds the event opened for CPU c for every online CPU c, and after Pause no slot holds an event of this reader.", "quantifier": "every set of online/offline CPUs and every sequence of Pause/Resume", "why_tests_cant": "Depends on the topology of offline CPUs, which test machines rarely have.", "anchors": ["perf/reader.go:NewReaderWithOptions", "perf/reader.go:Reader.Resume", "perf/reader.go:Reader.Pause"]}
{"id": "C24", "title": "BTF string table round trip", "statement": "Every string added to a string table builder is returned by looking up its offset in the encoded table; equal strings share one offset, distinct strings have distinct offsets, previously returned offsets stay valid, and the encoded table has exactly the reported length.", "quantifier": "every sequence of Add calls with any strings", "why_tests_cant": "Quantifies over arbitrary add histories.", "anchors": ["btf/strings.go:stringTableBuilder.Add", "btf/strings.go:stringTableBuilder.AppendEncoded", "btf/strings.go:stringTable.Lookup"]}
{"id": "C25", "title": "BTF string lookups are safe and exact", "statement": "A string table accepts only null terminated contents starting with the empty string; Lookup returns the bytes up to the next NUL for offsets that begin a string and an error for offsets in the middle of a string or out of bounds; split tables resolve offsets below the base length in the base table; cached lookups agree with uncached ones. It never panics.", "quantifier": "every byte string, base table and offset", "why_tests_cant": "Adversarial table contents and offsets.", "anchors": ["btf/strings.go:newStringTable", "btf/strings.go:stringTable.lookupSlow", "btf/strings.go:stringTable.LookupCached"]}
{"id": "C26", "title": "BTF header bitfields obey get/set laws", "statement": "The packed fields of a wire type (kind, vlen, kind flag, linkage) and of an integer description (encoding, offset, bits) read back what was written truncated to the field width, and writing one field does not disturb the others.", "quantifier": "every 32 bit info word and value", "why_tests_cant": "2^32 words times field values.", "anchors": ["btf/btf_types.go:readBits", "btf/btf_types.go:writeBits", "btf/btf_types.go:btfType.SetKind", "btf/btf_types.go:btfType.SetVlen", "btf/btf_types.go:btfInt"]}
{"id": "C27", "title": "BTF blob header validation", "statement": "Parsing a blob header accepts exactly magic/version/flags-valid headers of either byte order with zero trailers and never reads outside the buffer; type and string sections outside the blob are rejected.", "quantifier": "every byte string", "why_tests_cant": "Adversarial inputs.", "anchors": ["btf/btf_types.go:parseBTFHeader", "btf/btf.go:loadRawSpec"]}
{"id": "C28", "title": "BTF type section scan", "statement": "Scanning a type section yields consecutive, non-overlapping, in-bounds type records covering the whole section, or an error; a section produced by the encoder is scanned into exactly the records encoded, in order.", "quantifier": "every byte string and every encoded type list", "why_tests_cant": "Adversarial sections; unbounded number of records.", "anchors": ["btf/unmarshal.go:allBtfTypeOffsets", "btf/btf_types.go:btfType.DataLen"]}
{"id": "C29", "title": "BTF types survive encode/decode", "statement": "Encoding types with Builder.Marshal and loading the result yields a graph isomorphic to the original: each ID handed out by Add denotes a type with the same kind, name, sizes, members, and references, including cyclic types.", "quantifier": "every finite, possibly cyclic type graph (within the wire format's field widths)", "why_tests_cant": "Type graphs are unbounded and cyclic.", "anchors": ["btf/marshal.go:Builder.Marshal", "btf/marshal.go:encoder.deflateType", "btf/unmarshal.go:decoder.inflateType"]}
{"id": "C30", "title": "Builder IDs are stable and dense", "statement": "Builder.Add assigns 1,2,3,... to distinct types in order of addition, returns the same ID when the identical type is added again and 0 for Void, and marshaling writes the type with ID i as the i-th record.", "quantifier": "every sequence of Add calls", "why_tests_cant": "Depends on the history of additions.", "anchors": ["btf/marshal.go:Builder.Add", "btf/marshal.go:encoder.allocateIDs", "btf/marshal.go:encoder.deflatePending"]}
{"id": "C31", "title": "Type decoding terminates and preserves sharing", "statement": "TypeByID terminates on every (possibly cyclic) type section, returns the same object for the same ID, resolves references to the object of the referenced ID, and returns an error for references to unknown IDs.", "quantifier": "every type section and sequence of queries", "why_tests_cant": "Cyclic graphs and query histories.", "anchors": ["btf/unmarshal.go:decoder.inflateType", "btf/unmarshal.go:decoder.TypeByID"]}
{"id": "C32", "title": "Type decoding results do not depend on earlier failed queries", "statement": "Whether TypeByID(id) succeeds and what it returns does not depend on previously failed TypeByID calls on the same Spec: a type that could only be partially decoded is never handed out.", "quantifier": "every type section and every history of queries", "why_tests_cant": "Requires a particular order of failing and succeeding queries on malformed cyclic BTF.", "anchors": ["btf/unmarshal.go:decoder.inflateType"]}
{"id": "C33", "title": "Lookup by name is exact despite hash collisions", "statement": "TypesByName(name) returns exactly the types whose essential name equals name, independent of the hash function used by the index, in ascending ID order within the index; flavour suffixes are ignored.", "quantifier": "every set of type names, every hash function", "why_tests_cant": "Quantifies over hash functions, i.e. all collision patterns.", "anchors": ["btf/unmarshal.go:decoder.TypesByName", "btf/unmarshal.go:fuzzyStringIndex.Find", "btf/types.go:newEssentialName", "btf/unmarshal.go:newDecoder"]}
{"id": "C34", "title": "Type graph traversal is complete and duplicate free", "statement": "Postorder traversal terminates on cyclic graphs, yields every type reachable from the root exactly once and yields children before parents except along cycles.", "quantifier": "every finite type graph", "why_tests_cant": "Graph shapes are unbounded.", "anchors": ["btf/traversal.go:postorder", "btf/traversal.go:visitInPostorder", "btf/traversal.go:children"]}
{"id": "C35", "title": "Copy produces an isomorphic disjoint graph", "statement": "btf.Copy returns a graph isomorphic to its (possibly cyclic) input that shares no mutable node with it and preserves internal sharing.", "quantifier": "every finite type graph", "why_tests_cant": "Aliasing and cycles.", "anchors": ["btf/types.go:Copy", "btf/types.go:copyType"]}
{"id": "C36", "title": "Type deduplication only merges equivalent types", "statement": "With deduplication enabled, adding a type never replaces it (or one of its children) by a type that is not equivalent to it, so the encoded BTF describes the same layouts.", "quantifier": "every sequence of added type graphs, every hash function", "why_tests_cant": "Graph pairs and hash collisions are unbounded.", "anchors": ["btf/dedup.go:deduper.deduplicate", "btf/dedup.go:deduper.typesEquivalent", "btf/dedup.go:deduper.compositeEquivalent", "btf/dedup.go:deduper.hash"]}
{"id": "C37", "title": "Sizeof is exact or an error", "statement": "Sizeof returns the product of array dimensions and the element size looking through typedefs and qualifiers, never a wrapped value: overflow, unsized and too deeply nested or cyclic types are errors. It terminates on every type.", "quantifier": "every type graph including cyclic ones and all 32 bit dimensions", "why_tests_cant": "Overflow boundaries and cyclic chains.", "anchors": ["btf/types.go:Sizeof", "btf/types.go:UnderlyingType", "btf/types.go:alignof"]}
{"id": "C38", "title": "CO-RE picks a best target and rejects ambiguity", "statement": "Among the candidate target types the fixups returned are those of a target with the minimal number of poisoned/non-existent relocations; if two minimal targets disagree the relocation fails as ambiguous; with no useful candidate every existence check resolves to 0 and everything else is poisoned; the result has one fixup per relocation in order.", "quantifier": "every list of relocations and candidate targets", "why_tests_cant": "Combinatorial over candidate lists.", "anchors": ["btf/core.go:coreCalculateFixups", "btf/core.go:CORERelocate"]}
{"id": "C39", "title": "CO-RE bitfield shifts extract the field", "statement": "Loading the target field at the relocated byte offset and size and applying the relocated left and right shifts yields exactly the value of the target bitfield, for either byte order, signed and unsigned.", "quantifier": "every memory content, bitfield offset and size within the load, both byte orders", "why_tests_cant": "All memory contents and bit positions.", "anchors": ["btf/core.go:coreCalculateFixup", "btf/core.go:coreField.adjustOffsetBits", "btf/core.go:coreField.sizeBits"]}
{"id": "C40", "title": "CO-RE field offsets are layout offsets", "statement": "For a field access path, the relocated byte offset equals the sum of the layout offsets of the correspondingly named members and array elements in the target type, searching anonymous members; unmatched paths are impossible relocations, never a wrong offset.", "quantifier": "every pair of local/target types and accessor", "why_tests_cant": "Type pairs and paths are unbounded.", "anchors": ["btf/core.go:coreFindField", "btf/core.go:coreFindMember", "btf/core.go:coreField.adjustOffsetToNthElement"]}
{"id": "C41", "title": "CO-RE fixups only touch the relocated operand", "statement": "Applying a fixup either fails, replaces the whole instruction by a poison instruction of the same width, or changes exactly one operand field (offset or immediate) to the target value, which is then exactly representable in that field.", "quantifier": "every fixup and instruction", "why_tests_cant": "All opcodes and values.", "anchors": ["btf/core.go:COREFixup.Apply"]}
{"id": "C42", "title": "CO-RE type compatibility follows the documented relation", "statement": "CheckTypeCompatibility terminates on cyclic types and accepts exactly the pairs in the largest relation satisfying the documented rules (same kind modulo qualifiers/typedefs, pointers/arrays/function prototypes compared structurally); in particular every supported type is compatible with itself.", "quantifier": "every pair of (cyclic) type graphs", "why_tests_cant": "Coinductive relation on unbounded graphs.", "anchors": ["btf/core.go:coreAreTypesCompatible", "btf/core.go:CheckTypeCompatibility"]}
{"id": "C43", "title": "CO-RE accessor strings", "statement": "Parsing an accessor string inverts formatting it, accepts exactly non-empty colon separated lists of decimal numbers below 2^31, and always yields at least one index.", "quantifier": "every string / every index list", "why_tests_cant": "Unbounded strings.", "anchors": ["btf/core.go:parseCOREAccessor", "btf/core.go:coreAccessor.String"]}
{"id": "C44", "title": "Essential names strip exactly one flavour", "statement": "The essential name of n is the part before the last ___ if that is preceded by at least one byte, else n itself; names equal modulo flavour match; a name without ___ is its own essential name.", "quantifier": "every string", "why_tests_cant": "Unbounded strings with overlapping underscores.", "anchors": ["btf/types.go:newEssentialName", "btf/core.go:coreEssentialNamesMatch"]}
{"id": "C45", "title": "Linking pulls in each called function exactly once", "statement": "Flattening a program appends the instructions of every program reachable through bpf-to-bpf references exactly once, each as a contiguous block after the caller's own unchanged instructions, terminates on cyclic call graphs, and leaves programs without references untouched.", "quantifier": "every set of programs and (cyclic) call graph", "why_tests_cant": "Call graphs are unbounded.", "anchors": ["linker.go:flattenInstructions", "linker.go:flattenPrograms"]}
{"id": "C46", "title": "Per-CPU values round trip", "statement": "Marshaling a slice of per-CPU values and unmarshaling the buffer returns the same values; slots are 8 byte aligned, missing trailing CPUs read as zero, and slices longer than the number of CPUs are rejected; batches are the concatenation of single values.", "quantifier": "every number of CPUs, element size and values", "why_tests_cant": "All sizes and CPU counts.", "anchors": ["marshalers.go:appendPerCPUSlice", "marshalers.go:unmarshalPerCPUValue", "marshalers.go:marshalBatchPerCPUValue", "marshalers.go:unmarshalBatchPerCPUValue"]}
{"id": "C47", "title": "Mapped memory accesses stay in bounds", "statement": "Memory.ReadAt/WriteAt never touch bytes outside the mapping, transfer exactly the overlap, report io.EOF iff the transfer was short, refuse writes to read-only memory; a read after a write returns the written bytes and other bytes are unchanged; variables outside their mapping are rejected even when offset+size overflows.", "quantifier": "every offset, buffer and memory content", "why_tests_cant": "All offsets incl. overflow boundaries.", "anchors": ["memory.go:Memory.ReadAt", "memory.go:Memory.WriteAt", "memory.go:Memory.bounds", "variable.go:newVariable", "variable.go:Variable.Get", "variable.go:Variable.Set"]}
{"id": "C48", "title": "Double ended queue behaves like a list", "statement": "Any sequence of Push, Pop, Shift, Grow and Reset operations on the deque used for type traversal behaves like the same operations on a list, for every growth and wrap-around pattern.", "quantifier": "every operation sequence", "why_tests_cant": "Ring wrap-around and growth interleavings are unbounded.", "anchors": ["internal/deque.go:Deque"]}
{"id": "C49", "title": "Alignment and clamping helpers", "statement": "Align(n,a) is the least multiple of a that is >= n (absent overflow), IsPow accepts exactly powers of two, Between clamps into the interval spanned by its bounds in either order.", "quantifier": "all integers", "why_tests_cant": "Infinite domain.", "anchors": ["internal/math.go:Align", "internal/math.go:IsPow", "internal/math.go:Between"]}
{"id": "C50", "title": "Instructions.Marshal can be repeated", "statement": "Instructions.Marshal resolves references in place; calling it again on the same instructions after a success writes exactly the same bytes and leaves the instructions as they are.", "quantifier": "every instruction stream whose instructions have at most one of Constant and Offset pending (all constructors)", "why_tests_cant": "Ranges over all programs; the second call sees a program modified by the first one.", "anchors": ["asm/instruction.go:Instructions.Marshal", "asm/instruction.go:Instructions.encodeFunctionReferences"]}
{"id": "C51", "title": "Limit of symbolic jumps: far targets are not detected", "statement": "Negative result delimiting C07: a jump whose target is more than 2^15 slots away is encoded without an error with a displacement truncated to 16 bits, which lands on a different instruction.", "quantifier": "there is a program (a family of programs of growing length)", "why_tests_cant": "Needs programs of more than 32768 instructions; no test has one.", "anchors": ["asm/instruction.go:Instructions.encodeFunctionReferences"]}
{"id": "C52", "title": "AvailableBytes is the number of unreleased bytes", "statement": "AvailableBytes equals the total size (headers and padding included) of the records reserved by BPF programs and not yet released by Commit, so it lies between 0 and the ring size.", "quantifier": "every reachable ring state, and every interleaving of the two loads with a reader", "why_tests_cant": "The race between the two loads and a concurrent reader needs an exact interleaving.", "anchors": ["ringbuf/ring.go:ringReader.available", "ringbuf/raw_reader.go:RawReader.AvailableBytes"]}
{"id": "C53", "title": "Ring memory is only accessed while mapped", "statement": "No call on a ring buffer reader, including AvailableBytes, touches the shared memory after Close released it.", "quantifier": "every interleaving of WithLease, Close and AvailableBytes calls", "why_tests_cant": "Use after unmap depends on the schedule.", "anchors": ["ringbuf/raw_reader.go:RawReader.AvailableBytes", "ringbuf/raw_reader.go:RawReader.Close", "ringbuf/ring_other.go:mmapEventRing.close"]}
{"id": "C54", "title": "Perf reader continues with the next record after an unknown one", "statement": "After Read reports an unknown event, the next Read continues with the record that follows it in the ring and never returns a sample no program wrote.", "quantifier": "every unknown record type, body and following records", "why_tests_cant": "Depends on the bytes of the unknown record's body.", "anchors": ["perf/reader.go:readRecord", "perf/reader.go:Reader.readRecordFromRing"]}
{"id": "C55", "title": "bpf_core_type_matches follows the documented relation", "statement": "The type matching used by bpf_core_type_matches() terminates on every pair of (cyclic) types and accepts exactly the documented relation: kinds, sizes and signedness of integers, variants of enums, members by name (only names and kinds behind a pointer) and forward declarations of the same struct; every supported type matches itself.", "quantifier": "every pair of (cyclic) type graphs", "why_tests_cant": "Coinductive relation on unbounded graphs.", "anchors": ["btf/core.go:coreTypesMatch", "btf/core.go:coreEnumsMatch", "btf/types.go:Fwd.matches"]}
{"id": "C56", "title": "CORERelocate solves every relocation in place", "statement": "CORERelocate returns one fixup per relocation, in the order given: fixup i is the solution of relocation i computed with all relocations of the same local type against all types of that essential name in all targets; relocations of local type IDs get the ID of the caller's resolver. Neither success nor the result depends on map iteration order.", "quantifier": "every list of relocations and targets, every map iteration order", "why_tests_cant": "Map iteration order is random and lists are unbounded.", "anchors": ["btf/core.go:CORERelocate", "btf/core.go:coreCalculateFixups"]}
{"id": "C57", "title": "CO-RE enum and type relocations", "statement": "An enum value relocation yields the value of the target's variant of the same essential name and is poisoned exactly if there is none; existence relocations yield 1 or 0 accordingly; type size and type ID relocations yield the target's size or ID if the types are compatible and are poisoned otherwise.", "quantifier": "every pair of (cyclic) type graphs and every relocation", "why_tests_cant": "Type graphs are unbounded.", "anchors": ["btf/core.go:coreCalculateFixup", "btf/core.go:coreFindEnumValue"]}
{"id": "C58", "title": "Lookup by full name", "statement": "AnyTypesByName(name) returns exactly the types with that full name (flavours of the name excluded) or ErrNotFound if there is none, AnyTypeByName the only one or an error, and TypeByName the only one of the requested Go type, ErrMultipleMatches or ErrNotFound; no other type is ever returned.", "quantifier": "every set of type names, every hash function, every history of queries", "why_tests_cant": "Depends on which flavours of a name exist and on their order.", "anchors": ["btf/btf.go:Spec.AnyTypesByName", "btf/btf.go:Spec.AnyTypeByName", "btf/btf.go:Spec.TypeByName"]}
{"id": "C59", "title": "A generated Go declaration has the C layout", "statement": "The Go type which GoFormatter.TypeDeclaration writes for a BTF type has the memory layout of the C type: its size, and name, order, offset and (recursively) type of every member which is not a bitfield, with padding where C has some; an anonymous union is shown as its first member. Enum constants have the values of the enum, signed if the enum is.", "quantifier": "every (cyclic) type graph, naming function and identifier function", "why_tests_cant": "Type graphs are unbounded and the layout is that of the Go compiler.", "anchors": ["btf/format.go:GoFormatter.TypeDeclaration", "btf/format.go:GoFormatter.writeStructLit", "btf/format.go:GoFormatter.writeStructField", "btf/format.go:GoFormatter.writeDatasecLit"]}
{"id": "C60", "title": "Loading .BTF.ext", "statement": "Loading a well formed .BTF.ext section succeeds and yields, for every named section of the file, one entry per function info, line info and CO-RE relocation: with the offset in instructions, sorted by it, the type the ID denotes, and the strings and numbers the record encodes. Conversely nothing is returned which is not encoded in the file.", "quantifier": "every section contents, string table and type graph, both byte orders, any sort, any map order", "why_tests_cant": "Contents and number of sections are unbounded.", "anchors": ["btf/ext_info.go:loadExtInfos", "btf/ext_info.go:parseFuncInfos", "btf/ext_info.go:parseLineInfoRecords", "btf/ext_info.go:parseCORERelos", "btf/ext_info.go:parseBTFExtCOREHeader"]}
{"id": "C61", "title": "Function and line infos survive marshalling", "statement": "The func_info and line_info arrays which MarshalExtInfos writes for a program, loaded together with the marshalled types of the same builder, yield exactly the source lines of the program at the offsets of their instructions, and functions isomorphic to those of the program; marshalling fails rather than truncate a line number or column.", "quantifier": "every program, type graph and prior contents of the builder, both byte orders", "why_tests_cant": "Programs and type graphs are unbounded; offsets depend on all preceding instructions.", "anchors": ["btf/ext_info.go:MarshalExtInfos", "btf/ext_info.go:LoadFuncInfos", "btf/ext_info.go:LoadLineInfos", "btf/ext_info.go:LineOffset.marshal"]}
{"id": "C62", "title": "Metadata ends up on its instruction", "statement": "Assigning function infos, line infos and CO-RE relocations to the instructions of a section gives every instruction exactly the entries for its offset, in every function of the section, and changes nothing else.", "quantifier": "every program split into functions and every list of entries", "why_tests_cant": "The queues are consumed across functions: one misplaced entry would shift all that follow.", "anchors": ["elf_reader.go:loadFunctions", "elf_reader.go:take", "btf/ext_info.go:ExtInfos.Assign", "info.go:ProgramInfo.Instructions"]}
{"id": "C63", "title": "Iterating over a map", "statement": "A loop over MapIterator.Next ends whatever the kernel answers and whoever changes the map meanwhile: after at most max_entries + 2 calls and 2 * max_entries + 3 system calls (max_entries below 2^32 - 1). Everything returned is a key the kernel enumerated with a value it had at that time; once Next returned false it stays so. A map nobody changes is returned completely, each entry once, without an error. If others write and delete entries of a hash map meanwhile and the loop ends without an error, every entry which was there from the beginning and nobody touched has been returned.", "quantifier": "every map contents, every hash function, every schedule of concurrent writes and deletes between system calls", "why_tests_cant": "Schedules are unbounded: entries appear, disappear and move within their bucket while the cursor is among them.", "anchors": ["map.go:Map.Iterate", "map.go:MapIterator.Next", "map.go:MapIterator.Err"]}
{"id": "C64", "title": "Batch lookup is complete", "statement": "A program which calls BatchLookup or BatchLookupAndDelete with one cursor and slices of any non-zero length until ErrKeyNotExist collects every entry of the map: arrays in order, a prefix at any time; hash maps, even while others write and delete entries and after calls which failed or were too small, without returning any key twice, nothing which was never in the map, and every entry nobody touched exactly once; BatchLookupAndDelete has removed what it returned. With slices no smaller than a bucket the end is reached.", "quantifier": "every map contents, hash function, sequence of slice lengths, failures and schedule of concurrent writes between accesses to buckets", "why_tests_cant": "Histories of calls and concurrent modifications are unbounded.", "anchors": ["map.go:Map.BatchLookup", "map.go:Map.BatchLookupAndDelete", "map.go:Map.batchLookup", "map.go:Map.batchLookupCmd"]}
{"id": "C65", "title": "Batch cursors are memory safe", "statement": "However a program uses a MapBatchCursor, with any maps, commands and slices, the kernel is never given a cursor or element buffer smaller than what it reads or writes, and all system calls made with a cursor are for the map with which it was used first: using it with another map is an error which leaves the cursor intact.", "quantifier": "every history of uses of a cursor, every kernel which writes a key or 4 bytes", "why_tests_cant": "The histories are unbounded and out-of-bounds writes by the kernel go unnoticed by tests.", "anchors": ["map.go:MapBatchCursor", "map.go:Map.batchLookupCmd"]}
{"id": "C66", "title": "Loading a collection never leaks", "statement": "Whatever step of NewCollection or LoadAndAssign fails, every map and program created by the call is closed exactly once before it returns, and no object of the caller (such as a replacement map) is closed. If NewCollection succeeds nothing is closed and the Collection holds everything created; if LoadAndAssign succeeds, exactly the objects which are not in a field are closed, and every field holds the object of its type and name.", "quantifier": "every CollectionSpec, set of replacements and fields, every pattern of failures, every map iteration order", "why_tests_cant": "The failing step and the dependency graph are arbitrary.", "anchors": ["collection.go:NewCollectionWithOptions", "collection.go:CollectionSpec.LoadAndAssign", "collection.go:collectionLoader.loadMap", "collection.go:collectionLoader.close"]}
{"id": "C67", "title": "References in a collection are resolved by name", "statement": "When a program is loaded, each of its map references is linked to the map created for (or cloned from the replacement of) that name in the same call, and ordinary maps it uses already have their contents; names in the contents of program arrays and maps of maps become the program or map of that name. No name is loaded twice, an explicit file descriptor is not overwritten, and nothing is used after it is closed.", "quantifier": "every CollectionSpec, fields, failures and map iteration order", "why_tests_cant": "Loading is recursive and lazy, in random order.", "anchors": ["collection.go:collectionLoader.loadProgram", "collection.go:collectionLoader.loadMap", "collection.go:collectionLoader.populateDeferredMaps"]}
{"id": "C68", "title": "Maps are populated exactly once", "statement": "A Collection contains every map and variable of the spec and every program with a type, and all maps have been populated exactly once. After LoadAndAssign this holds for all maps the fields and their programs need; non-empty program arrays are in a field.", "quantifier": "every CollectionSpec, fields, failures and map iteration order", "why_tests_cant": "Depends on the order in which Go iterates over a map which grows.", "anchors": ["collection.go:collectionLoader.populateDeferredMaps", "collection.go:NewCollectionWithOptions", "collection.go:CollectionSpec.LoadAndAssign"]}
{"id": "C69", "title": "One owner for every object of a collection", "statement": "After any sequence of Assign, DetachMap and DetachProgram calls, every object of a Collection has either been handed to the caller once, or is closed by Close, never both; a failed Assign hands over nothing. Assign sets every tagged field, also of embedded structs, to the object of its type and name, and rejects duplicates.", "quantifier": "every collection, struct and sequence of calls", "why_tests_cant": "The sequences are unbounded.", "anchors": ["collection.go:Collection.Assign", "collection.go:Collection.DetachMap", "collection.go:Collection.DetachProgram", "collection.go:Collection.Close", "collection.go:ebpfFields", "collection.go:assignValues"]}
{"id": "C70", "title": "Feature probes are run once and agree", "statement": "However many goroutines ask whether the kernel supports a feature, the probe never runs twice at a time nor again after a conclusive result (supported or not supported); all callers get the same conclusive result, \"not supported\" only if the probe said so, and an inconclusive error only from a probe they ran themselves. A call made after a conclusive one returned gets its result. No call waits forever. A cache has one probe per key.", "quantifier": "every number of callers, every schedule, every sequence of probe results", "why_tests_cant": "Depends on the interleaving of callers.", "anchors": ["internal/feature.go:FeatureTest.execute", "internal/feature.go:FeatureCache.Result", "internal/feature.go:FeatureCache.retrieve"]}
{"id": "C71", "title": "Kernel versions", "statement": "Version.Less is a strict total order whose least element is the unspecified version. Kernel() is KERNEL_VERSION, inverted by NewVersionFromCode, and ordered like versions (patch levels from 255 on coincide). A feature's version is that of the first entry for this platform.", "quantifier": "every version, code and list of versions", "why_tests_cant": "The claims are about all pairs.", "anchors": ["internal/version.go:Version.Less", "internal/version.go:Version.Kernel", "internal/version.go:NewVersionFromCode", "internal/platform/platform.go:selectVersion"]}
{"id": "C72", "title": "Addresses of kernel symbols", "statement": "Looking up symbols in /proc/kallsyms succeeds exactly if each requested name belongs to no symbol, or to exactly one with a visible (non-zero) address; then each requested name has that address, or 0 if there is no such symbol. A name shared by several symbols and a hidden address are errors which name it. Answers never change: after a successful lookup all later ones give the same address. A lookup that fails is not remembered.", "quantifier": "every symbol table as the kernel prints it, every set of names, every sequence of lookups while the table changes", "why_tests_cant": "The claims range over all files and over histories of the process wide cache.", "anchors": ["internal/kallsyms/kallsyms.go:AssignAddresses", "internal/kallsyms/kallsyms.go:assignAddresses", "internal/kallsyms/kallsyms.go:parseSymbol", "internal/kallsyms/reader.go:reader.Word", "internal/kallsyms/cache.go:cache"]}
{"id": "C73", "title": "References to kernel symbols", "statement": "Loading a program sets each instruction which refers to an untyped kernel symbol to the symbol's address; only weak references may be absent (0). Loading fails if a required symbol is missing, naming all that are, or ambiguous. Whenever all references can be resolved loading does not fail because of them. The programs of a collection see one consistent lookup and read the symbol table once.", "quantifier": "every symbol table, every list of references of every program, every earlier lookup", "why_tests_cant": "Ranges over all combinations of weak, required, typed, hidden and cached symbols.", "anchors": ["linker.go:resolveKsymReferences", "linker.go:applyUntypedKsymFixups", "collection.go:populateKallsyms", "internal/kallsyms/kallsyms.go:AssignAddresses"]}
{"id": "C74", "title": "Kernel configuration", "statement": "When a collection with a .kconfig section is loaded, each variable named after an option gets the value which the kernel's configuration file first gives to that option, encoded in the variable's type and the native byte order; LINUX_KERNEL_VERSION and LINUX_HAS_SYSCALL_WRAPPER get the properties of the running kernel; all other bytes of the section are zero. A value which the type cannot represent (too large, negative, of another kind), an option which is not set, an unreadable file or a malformed line in front of the last wanted option are errors. The contents do not depend on the order in which options are processed.", "quantifier": "every configuration file, every layout of variables of every supported type, both byte orders, every iteration order of the map of options", "why_tests_cant": "Ranges over all files, numerals, types and layouts, and over Go's random map iteration order.", "anchors": ["internal/kconfig/kconfig.go:Parse", "internal/kconfig/kconfig.go:processKconfigLine", "internal/kconfig/kconfig.go:PutValue", "internal/kconfig/kconfig.go:PutInteger", "collection.go:resolveKconfig"]}
{"id": "C75", "title": "Section names determine program types", "statement": "A program in a section whose name matches documented patterns gets the program type, attach type, flags and attach target of the most specific (longest) of these patterns, whatever the order in which patterns are tried; a leading question mark is ignored, and without a match the type is unspecified. Every pattern is reachable; sleepable variants differ only in the sleepable flag.", "quantifier": "every section name", "why_tests_cant": "The set of names is infinite and patterns are prefixes of each other.", "anchors": ["elf_sections.go:elfSectionDefs", "elf_reader.go:getProgType", "elf_reader.go:matchSectionName"]}
{"id": "C76", "title": "Programs of an object file", "statement": "Loading an object file yields one program per function symbol outside of .text: its own instructions, followed by those of every function of the file it calls or takes the address of, directly or indirectly, each once. Every relocated instruction and every relative call refers to the map, the offset in a data section, the function, kfunc, kernel symbol or kconfig variable which the ELF and BPF ABI documents assign to it, all other instructions are unchanged. Neither success nor result depend on the order in which sections are visited; files whose relocations all have a meaning load.", "quantifier": "every object file (sections, symbols, relocations, instructions) as compilers write them, every iteration order of the maps", "why_tests_cant": "Ranges over all files; sections are visited in Go's random map order.", "anchors": ["elf_reader.go:LoadCollectionSpecFromReader", "elf_reader.go:elfCode.assignSymbols", "elf_reader.go:elfCode.loadRelocations", "elf_reader.go:elfCode.loadProgramSections", "elf_reader.go:elfCode.loadFunctions", "elf_reader.go:elfCode.relocateInstruction", "elf_reader.go:referenceRelativeJump", "elf_reader.go:jumpTarget", "elf_reader.go:elfCode.loadSectionRelocations", "linker.go:flattenPrograms"]}
{"id": "C77", "title": "Variables of an object file", "statement": "Loading an object file yields one map per data section which an instruction refers to or which has symbols, holding exactly the section's bytes (zeroes for .bss), read only for programs exactly if the section's name begins with .rodata; and one variable per global or weak symbol of default or protected visibility, with its section, offset, initial value and the type which the section's BTF gives it. Loading fails exactly if such a section is too large or of another type, a variable exceeds it, two variables share a name, or BTF has an anonymous entry or disagrees about a variable's offset or size. Neither success nor result depend on the order in which sections and symbols are visited.", "quantifier": "every object file (sections, symbols, relocations) and BTF as compilers write them, every iteration order of the maps", "why_tests_cant": "Ranges over all files; sections and symbols are visited in Go's random map order.", "anchors": ["elf_reader.go:elfCode.loadDataSections", "elf_reader.go:elfCode.assignSymbols", "elf_reader.go:elfCode.loadRelocations", "elf_reader.go:isDataSection", "elf_reader.go:isConstantDataSection", "syscalls.go:sanitizeName"]}
{"id": "C78", "title": "Map definitions in BTF mean what C says", "statement": "LoadCollectionSpec reads the definition of a map from the type of its variable: each of type, max_entries, map_flags, key_size, value_size, pinning and map_extra is the number which the member of that name encodes (0 if there is none), key and value give the type and its size, values gives the inner map and, from the relocations, the map or program of every array element. A definition is accepted exactly if its members are known, of the right form and without contradictions (key beside key_size, values which isn't last or doesn't suit the map's type, pinning in an inner map); the order of the other members is irrelevant.", "quantifier": "all BTF type graphs, all lists of members, all object files and their relocations, all symbols", "why_tests_cant": "definitions are arbitrary structs over an arbitrary type graph; a test compiles a few", "anchors": ["elf_reader.go:mapSpecFromBTF", "elf_reader.go:uintFromBTF", "elf_reader.go:resolveBTFArrayMacro", "elf_reader.go:valuesRelocations", "elf_reader.go:resolveBTFValuesContents"]}
{"id": "C79", "title": "An object file has exactly the maps it defines", "statement": "LoadCollectionSpec succeeds with the map sections of an object file exactly if every legacy section (maps...) has symbols of at least 20 bytes within the section, every variable of .maps has a symbol and every symbol a variable with a valid definition and zero bytes, and no two maps have the same name. Then every symbol of a map section is a map: for legacy sections the five integers of its bytes, the rest as extra data and the tags of the variable of that name; for .maps the definition of C78. There are no other maps, and neither success nor the result depends on the order in which Go visits sections, symbols and variables.", "quantifier": "all object files as compilers emit them, all BTF, all orders of iteration over maps", "why_tests_cant": "Go's map iteration order is random and inputs are arbitrary files; duplicates only show for some pairs of sections", "anchors": ["elf_reader.go:elfCode.loadMaps", "elf_reader.go:elfCode.sectionVars", "elf_reader.go:elfCode.loadBTFMaps"]}
{"id": "C80", "title": "The verifier log of a program", "statement": "Unless the log is disabled, loading a rejected program returns an error with the kernel's errno and all lines of the verifier log of the requested level (or of LogLevelBranch if none was requested), however long the log is, up to the largest buffer the kernel allows; loading an accepted program with a log level returns the whole log, and without one takes a single system call. The library tells apart poisoned relocations and kfuncs by the markers at the end of the log. At most 30 system calls are made whatever the kernel does; at most 3 if the kernel says how large the log is, and never 30 if it never does. With the log disabled there is exactly one.", "quantifier": "all programs (verdicts and logs of each level), all log options, kernels with and without LogTrueSize; the bounds for every behaviour of the kernel over time", "why_tests_cant": "needs logs of every size up to 1 GiB, and kernels of several generations", "anchors": ["prog.go:newProgramWithOptions", "prog.go:retryLogAttrs", "prog.go:programLoadError"]}
{"id": "C81", "title": "Errors with a verifier log", "statement": "VerifierError.Log has the lines of the text in the log buffer up to the first zero byte, without trailing white space and without blank lines before and after; lines printed by the kernel come back unchanged. Error() shows the last line other than the statistics, and the one before it exactly if the line is indented, is about a register or a context access, and gives the number of lines left out. The + and - flags print the first or last lines, as many as the width says or all, one per row so that they can be told apart, and the number of lines left out.", "quantifier": "all log buffers, all causes, widths and flags", "why_tests_cant": "the parser and printer range over all byte strings", "anchors": ["internal/errors.go:ErrorWithLog", "internal/errors.go:VerifierError.Error", "internal/errors.go:VerifierError.Format"]}
{"id": "C82", "title": "The log of rejected BTF", "statement": "Loading BTF ends after finitely many system calls, each with a larger log buffer than the one before, whatever the kernel does. Valid BTF takes one system call without a log. If the kernel reports the size of the log, rejected BTF gives an error with the kernel's errno and the whole log after at most three system calls; older kernels give the errno and the whole log if that fits 64 KiB.", "quantifier": "all BTF (verdict and log), kernels with and without BtfLogTrueSize; termination for every behaviour of the kernel", "why_tests_cant": "needs logs of every size and kernels of several generations", "anchors": ["btf/handle.go:NewHandleFromRawBTF"]}
{"id": "C83", "title": "Waiting for and closing a poller", "statement": "Any number of goroutines may call Wait, Add, Flush and Close at once: no descriptor is used after it was closed or closed twice, no call deadlocks, and each takes boundedly many steps apart from blocking in the kernel. Wait returns the events which the kernel reported, all of them and in order, together with ErrFlushed if there was a flush; a Flush is not lost. Close makes every Wait that has not received its events return ErrClosed, unless its slice is full of other events; once Close returned nil all descriptors are closed and every later call returns ErrClosed. A deadline makes Wait block for the remaining time, less at most a millisecond, if it is less than 24 days away.", "quantifier": "all schedules of any number of calls of Wait, Add, Flush and Close, all kernels' choices of events and interrupts; all deadlines", "why_tests_cant": "interleavings of any number of goroutines cannot be enumerated", "anchors": ["internal/epoll/poller.go:Poller.Wait", "internal/epoll/poller.go:Poller.Close", "internal/epoll/poller.go:Poller.Flush", "internal/epoll/poller.go:Poller.Add", "internal/epoll/poller.go:wakeWaitForClose"]}
{"id": "C84", "title": "References to the kernel", "statement": "When a program is loaded, each reference to a kernel function, a kernel variable or the kernel configuration is replaced: a function of compatible type by its BTF ID and the slot of its module in the fd array, a variable by its BTF ID and its module's descriptor, a configuration value by an address in the .kconfig map; weak references to what does not exist become null, respectively a recognizable invalid call, others are an error (the last instruction must not be the address of a missing weak function); helpers which the kernel lacks are replaced by the older ones; nothing else changes. Loads from a named map without a map are refused. If everything is available and at most 32767 references are to modules, the program is not refused.", "quantifier": "all programs and kernels; modules, weak references, repeated references", "why_tests_cant": "the combinations of references, modules and kernels are unbounded", "anchors": ["linker.go:fixupKfuncs", "linker.go:applyTypedKsymFixups", "linker.go:resolveKconfigReferences", "linker.go:fixupAndValidate", "linker.go:fixupProbeReadKernel", "asm/instruction.go:AssociateBTFID", "prog.go:newProgramWithOptions"]}
{"id": "C85", "title": "Handles opened for a program load", "statement": "Handles of kernel modules and the .kconfig map stay open until the kernel was asked to load the program, and are closed afterwards; if a reference can't be resolved they are closed too, provided that no variable of a module and at most 32767 functions of modules are referred to.", "quantifier": "all programs and kernels, success and every error", "why_tests_cant": "each instruction may fail after others have opened handles", "anchors": ["linker.go:handles", "linker.go:fixupKfuncs", "linker.go:applyTypedKsymFixups", "prog.go:newProgramWithOptions"]}
{"id": "C86", "title": "Symbols of executables", "statement": "For a well-formed ELF file, a uprobe on a symbol and an offset inside it is placed at the file offset from which the instruction at that offset of the function is loaded: the last function of that name in the symbol tables. Unknown symbols, symbols of libraries and offsets outside the function are errors, nothing else is. Finding the symbol at an address gives a function that contains it and the offset of the address in it, in every order of iteration, and fails only if there is no such function; it is the inverse of placing a probe. With many symbols each is handled like one. The file is read once: all answers are for what it contained then.", "quantifier": "all ELF files, symbols, offsets, addresses, iteration orders and sequences of calls", "why_tests_cant": "the files, and the interleaving of calls with changes of the file, are unbounded", "anchors": ["link/uprobe.go:Executable", "link/uprobe.go:address", "link/uprobe.go:Symbol", "link/uprobe_multi.go:addresses"]}
{"id": "C87", "title": "Trace events are what was asked for", "statement": "The line written to kprobe_events or uprobe_events is read by the kernel as exactly one command, with the group, name, symbol or path, offsets, return flag and maxactive that were asked for, provided the path has no white space and no number sign; such lines are written for every valid group and every symbol that is not empty and does not begin with a digit. Names contain only letters, digits and underscores. Groups are valid, at most 63 characters long, and different for different random numbers.", "quantifier": "all symbols, paths, offsets, prefixes and random numbers", "why_tests_cant": "the texts are unbounded, and the kernel's parser is not run", "anchors": ["internal/tracefs/kprobe.go:NewEvent", "internal/tracefs/kprobe.go:RandomGroup", "internal/tracefs/kprobe.go:sanitizeIdentifier", "internal/tracefs/kprobe.go:KprobeToken", "internal/tracefs/uprobe.go:UprobeToken", "link/kprobe.go:isValidKprobeSymbol"]}
{"id": "C88", "title": "Attaching and closing probes", "statement": "Whatever the kernel answers to each request, attaching a kprobe or uprobe either fails and leaves no descriptor open and no trace event behind (unless the kernel fails to tell the id of the event just created, or to remove it), or returns a link to the probe that was asked for, with the program and the cookie attached; the link holds only descriptors and an event that are new. The PMU is tried before tracefs, which is used only if there is no PMU, a maxactive is asked for, or the PMU doesn't accept a symbol with dots; the symbol with the platform's prefix is tried if the kernel does not find the symbol, and only after it refused it as unknown; nothing is tried twice. Closing the link gives back exactly what it holds, so that attaching and closing changes nothing.", "quantifier": "all sequences of answers of the kernel, all probes, cookies, prefixes and states before", "why_tests_cant": "each of a dozen requests can fail in several ways, on kernels that are not at hand", "anchors": ["link/kprobe.go:Kprobe", "link/kprobe.go:pmuProbe", "link/kprobe.go:tracefsProbe", "link/uprobe.go:uprobe", "link/perf_event.go:attachPerfEvent", "link/perf_event.go:perfEvent.Close", "internal/tracefs/kprobe.go:NewEvent", "internal/tracefs/kprobe.go:removeEvent"]}
{"id": "C89", "title": "Pinning an object moves, and never replaces, pins", "statement": "Pin(path) of a map, program or link that succeeds leaves the object at the path, removes the pin it had before, replaces nothing and changes no other pin; one that fails changes nothing. It succeeds exactly if the path is not empty, is the present one or is free and on a bpf file system. Unpin removes that pin and nothing else. IsPinned and later calls agree with the file system after any sequence of calls, as long as nobody else touches the pin. Loading a pinned object records its path, changes no pin, and leaves no descriptor open if it fails. No call of the library puts an object in the place of another one, whatever happens concurrently.", "quantifier": "all objects, paths, contents of the file system, sequences of Pin and Unpin, and failures of system calls", "why_tests_cant": "tests pin one object in an otherwise quiet file system", "anchors": ["internal/sys/pinning_other.go:Pin", "internal/sys/pinning_other.go:Unpin", "map.go:Map.Pin", "map.go:Map.Unpin", "map.go:LoadPinnedMap", "pin/load.go:Load", "prog.go:Program.Pin"]}
{"id": "C90", "title": "Maps pinned by name are shared by all who create them", "statement": "If any number of processes create maps from specs that are pinned by name, in any interleaving, with any failures and with any of them killed at any time, all that succeed with the same path hold the same map, which is at that path; it is compatible with the spec of each, has its contents and is frozen if the spec says constant. Who fails or is killed keeps no descriptor, and who succeeds keeps one; pins, maps and their attributes stay. A map that was created from a spec is compatible with it, and a compatible pinned map is reused instead of creating another.", "quantifier": "all numbers of processes, specs with agreeing contents, initial states of the kernel, interleavings, failures of system calls and kills", "why_tests_cant": "tests create maps one after another", "anchors": ["map.go:newMapWithOptions", "map.go:MapSpec.Compatible", "map.go:MapSpec.fixupMagicFields", "map.go:MapSpec.createMap", "map.go:Map.finalize", "map.go:NewMapWithOptions"]}
{"id": "C91", "title": "Keys and values are the bytes of their Go values", "statement": "For a map operation on keys or values of n bytes, n > 0: a Go value is accepted exactly if its fields, one after another without padding and in native byte order, take n bytes (strings, byte slices and marshalers: their bytes), and these bytes are what the kernel gets, whatever the padding in memory contains, no matter whether memory is passed to the kernel directly or copied. What the kernel returns is put into exactly those fields, padding stays as it was, and it is an error exactly if the size is different; whether the kernel writes to the variable's memory or to a buffer makes no difference. Reading what was written gives the same numbers, and writing what was read the same bytes. Exceptions: booleans other than 0 and 1, signalling NaNs and blank fields that are not zero; types with fields that are not exported can't be read.", "quantifier": "all types built from numbers, arrays and structs, all memory contents, strings, byte slices, pointers and slices, sizes, and both word sizes", "why_tests_cant": "types and their layouts are unbounded; which of the two ways is taken depends on the type", "anchors": ["internal/sysenc/marshal.go:Marshal", "internal/sysenc/marshal.go:Unmarshal", "internal/sysenc/marshal.go:unsafeBackingMemory", "internal/sysenc/layout.go:hasUnexportedFields", "internal/sysenc/buffer.go:SyscallOutput", "marshalers.go:marshalMapSyscallInput", "marshalers.go:makeMapSyscallOutput"]}
{"id": "C92", "title": "Descriptors are closed once, by their owner", "statement": "As long as the program keeps an FD (or the map, program or link that contains it) until its methods have returned: whatever is opened, closed, duplicated, disowned or dropped in any order, and whenever the garbage collector runs, an FD closes nothing but the descriptor it was made for, only while nobody else owns it, and at most once; no descriptor is closed twice; every number passed to the kernel stands for the FD's own descriptor, although numbers are reused. Once Close or Disown has returned the FD closes nothing any more. Every open descriptor belongs to others or to exactly one FD, and if that is not held by the program any more the collector can close it.", "quantifier": "all interleavings of methods, other code that opens and closes descriptors, and the garbage collector", "why_tests_cant": "schedules of the collector and the reuse of numbers can't be enumerated", "anchors": ["internal/sys/fd.go:newFD", "internal/sys/fd.go:FD.Disown", "internal/sys/fd.go:FD.Uint", "internal/sys/fd_other.go:NewFD", "internal/sys/fd_other.go:FD.Close", "internal/sys/fd_other.go:FD.Dup", "internal/sys/fd_other.go:FD.File"]}
{"id": "C93", "title": "Pointers to variables of BPF programs", "statement": "VariablePointer[T](v) succeeds exactly if the variable's memory is writable and mapped over the Go heap, T has the variable's size (or is uintptr, for a variable of 8 bytes on a 32 bit machine), the offset is a multiple of T's alignment and T can be shared with C: no Go pointers, nothing whose size depends on the machine, and every struct has structs.HostLayout. Then the pointer is aligned and all of *T lies within the variable. As long as anything can reach the memory it is the map's, whatever else is allocated or collected; it lies in an allocation of its own; and memory which the Go runtime hands out is ordinary memory again, neither a map's nor read-only, unless a failing mmap has removed a mapping.", "quantifier": "all types, variables, sizes, page sizes, addresses of allocations, answers of mmap, and interleavings with the garbage collector", "why_tests_cant": "the heap's layout and the collector's schedule can't be enumerated; a violation corrupts unrelated memory", "anchors": ["variable.go:VariablePointer", "variable.go:checkVariable", "variable.go:newVariable", "memory_unsafe.go:checkType", "memory_unsafe.go:checkUnsafeMemory", "memory_unsafe.go:memoryPointer", "memory_unsafe.go:newUnsafeMemory", "memory_unsafe.go:allocate", "memory_unsafe.go:mapmap", "memory_unsafe.go:unmap"]}
{"id": "C94", "title": "Sizes and offsets of data sections", "statement": "In BTF loaded from an ELF file, every successful lookup of a data section (by ID, by name or by iteration) gives one where, for .kconfig, the variables have offsets one after another in order, each aligned for its type, the size is that of all of them, and they are global, no longer extern; where, for other sections whose size is not set in BTF, the size is that of the ELF section with this name and each variable's offset is the value of the symbol with its name in that section. If there is no such section or symbol, the lookup fails. .ksyms, sections that already have a size, and BTF not from an ELF file are left as they are. The result depends neither on earlier lookups nor on the Spec having been copied, and what a user changed afterwards remains.", "quantifier": "all sections and symbols of the ELF file, all data sections, all sequences of lookups, modifications and copies", "why_tests_cant": "Files in tests come from clang, sections are looked up once.", "anchors": ["btf/btf.go:elfData.fixupDatasec", "btf/btf.go:fixupDatasecLayout", "btf/btf.go:symbolOffsets", "btf/btf.go:loadSpecFromELF", "btf/btf.go:Spec.Copy", "btf/btf.go:Spec.TypeByID"]}
{"id": "C95", "title": "What a program attaches to in the kernel", "statement": "When a program with AttachTo is loaded for LSM, fentry, fexit, fmod_ret, iterators, raw tracepoints or struct_ops, the kernel gets the ID of the only BTF type of the name and kind that the program type asks for: in vmlinux if there is one, otherwise in the first kernel module that has one, together with a handle of that module's BTF, which is open while the program is loaded and closed afterwards. ErrNotSupported means that neither vmlinux nor any module that was loaded all the time has such a type, or that the kernel has no BTF or does not let us see it. A name with several types in vmlinux or in the module is refused. Other programs are not refused. The search ends whatever modules come and go, and if none do and no system call fails nothing else goes wrong.", "quantifier": "all kernels, changing arbitrarily between system calls; all failures of system calls; all names, program and attach types; all states of the cache", "why_tests_cant": "Modules are not loaded and unloaded during tests, names in them are unique.", "anchors": ["prog.go:findProgramTargetInKernel", "prog.go:findTargetInKernel", "prog.go:findTargetInModule", "prog.go:newProgramWithOptions", "btf/handle.go:HandleIterator", "btf/handle.go:NewHandleFromID", "btf/kernel.go:Cache.Module", "btf/kernel.go:Cache.Kernel"]}
{"id": "C96", "title": "Running a program", "statement": "Run, Test and Benchmark return without an error exactly what the last execution of the program left: its return value, its output packet and its context, after at least Repeat executions; on kernels from 5.11 always, on older ones if Repeat is above 1. System calls that are interrupted are repeated, with a call of Reset each time; no other error is hidden, and errors are those of the kernel, or say that the output does not fit. Run panics only if the kernel wrote more than the buffer for output can hold; Test has room for 258 bytes more than the input. It ends as soon as an attempt is not interrupted.", "quantifier": "all programs, all options, all schedules of signals and failures, old and new kernels", "why_tests_cant": "Signals during the system call are rare and depend on timing and on the kernel.", "anchors": ["prog.go:Program.Run", "prog.go:Program.Test", "prog.go:Program.Benchmark", "prog.go:Program.run", "internal/sys/ptr.go:SlicePointer"]}
{"id": "C97", "title": "Cache of kernel types", "statement": "A btf.Cache may be used by any number of goroutines at once. Kernel gives everybody the same Spec, Module everybody the same Spec for a name, whose base is what Kernel returns; Modules gives everybody their own copy of one sorted list of module names, without vmlinux, which what others do to their copies does not change. Each of these is loaded at most once: nothing is loaded again after it was loaded, and a call fails only if what it needs just failed to load during that call, so failures are not remembered. There are no data races, panics or deadlocks, and a call takes a bounded number of steps.", "quantifier": "all numbers of goroutines and calls, all interleavings, all failures to load, all changes of the set of loaded modules", "why_tests_cant": "Races depend on the schedule; a unit test sees few schedules, and can not make /sys/kernel/btf fail in the middle.", "anchors": ["btf/kernel.go:Cache.Kernel", "btf/kernel.go:Cache.Module", "btf/kernel.go:Cache.Modules", "btf/kernel.go:NewCache"]}
{"id": "C98", "title": "Attaching to cgroups", "statement": "On kernels with bpf_link or BPF_F_REPLACE, after any history of AttachCgroup, Update and Close, successful or not, and of attachments of others, the cgroup has exactly the programs of the open links, in the order they were attached, among those of others, which stay as they are. AttachCgroup appends the program or changes nothing; Update puts the new program where the old one was, in one step, or changes nothing; Close without an error detaches it. Descriptors of the cgroup, of programs and of links are open exactly while a link needs them; none leaks when something fails.", "quantifier": "all histories, failures, programs, and attachments of others", "why_tests_cant": "Needs a kernel, cgroups, old kernel versions, and system calls that fail at every point.", "anchors": ["link/cgroup.go:AttachCgroup", "link/cgroup.go:newProgAttachCgroup", "link/cgroup.go:progAttachCgroup.Update", "link/cgroup.go:progAttachCgroup.Close", "link/program.go:RawAttachProgram", "link/program.go:RawDetachProgram", "link/link.go:RawLink.UpdateArgs"]}
{"id": "C99", "title": "Iterating over objects of the kernel", "statement": "Whatever links or BTF come and go while a caller iterates, and whatever they Take or wait for: ids grow, no object is returned twice, each object that is returned was there when it was opened, and if Next returns false without an error, all objects that were there from the beginning were returned. An error is reported only if a system call failed for another reason than that the object is gone. The descriptors that are open are those the caller took and that of the current object; after the last Next, after an error and after Close only those the caller took. Next ends once objects stop coming and going.", "quantifier": "all sets of objects as they change over time, failures, and sequences of Next, Take, Close and waiting", "why_tests_cant": "Needs a kernel whose objects come and go between two system calls.", "anchors": ["link/link.go:Iterator.Next", "link/link.go:Iterator.Take", "link/link.go:Iterator.Close", "link/link.go:NewFromID", "btf/handle.go:HandleIterator.Next", "btf/handle.go:HandleIterator.Take", "btf/handle.go:NewHandleFromID"]}
{"id": "C100", "title": "Attaching relative to other programs", "statement": "AttachTCX, AttachNetkit and RawAttachProgram put the program exactly where the anchor says: first, last, directly before or after the program or link that the anchor refers to, by descriptor or id, or, for ReplaceProgram, in the place of that program; without an anchor last. Nothing else moves, the revision grows by one, and it is the expected one. They succeed whenever the program is open and not attached, there is room, the anchor is attached, and the system call does not fail for its own reasons; flags of the caller cannot say where. RawDetachProgram removes exactly the entry of the program that was attached without a link; Update puts a program in the place of the old one; Close removes exactly the entry of the link. QueryPrograms returns exactly the programs and links attached at one point in time, in order, with the revision of that time, or an error: only if a system call fails or there are more programs than before.", "quantifier": "all lists of up to 64 programs, anchors, flags, revisions, and changes by others between system calls", "why_tests_cant": "Needs a kernel with tcx or netkit, other processes that attach programs, and changes between two system calls.", "anchors": ["link/tcx.go:AttachTCX", "link/netkit.go:AttachNetkit", "link/anchor.go:anchor.anchor", "link/anchor.go:Head", "link/anchor.go:Tail", "link/anchor.go:BeforeLink", "link/anchor.go:ReplaceProgram", "link/program.go:RawAttachProgram", "link/program.go:RawDetachProgram", "link/query.go:QueryPrograms", "link/link.go:RawLink.UpdateArgs"]}
{"id": "C101", "title": "Finding file systems", "statement": "The mounts found are those that the kernel lists in /proc/self/mountinfo, in order, each with its mount point, the directory of the file system that is mounted, and its type, as they are, whatever characters that the kernel escapes are in them; looking for a type finds the mount points of exactly the mounts of that type, each once, in order of appearance. The tracing file system used is the first tracefs that is mounted as a whole; only if there is none, the first debugfs mounted as a whole that has a directory tracing.", "quantifier": "all lists of mounts, with names with spaces, tabs, newlines and backslashes", "why_tests_cant": "Mount points can have any names; a test has the mounts of one machine.", "anchors": ["internal/mountinfo/mountinfo.go:Read", "internal/mountinfo/mountinfo.go:FindByFSType", "internal/mountinfo/mountinfo.go:parseLine", "internal/mountinfo/mountinfo.go:unescape", "internal/tracefs/kprobe.go:findTracefsInEntries"]}
{"id": "C102", "title": "BPF system calls and tokens", "statement": "A command is passed to the kernel with the attributes of the caller, plus the token if the command takes one and there is one, exactly once, except that loading a program is repeated while it is interrupted; the caller gets the value or an error that is the errno of the kernel for errors.Is, and ErrTokenCapabilities exactly if permission is denied and the token does not allow the command, or is not known to. The token is the first one that a mounted BPF file system gives, in order, skipping those that refuse; each is tried at most once however many commands there are, all commands use the same result, an unexpected error is reported, and no descriptor but that of the token stays open. While programs are verified or run, the thread is locked and SIGPROF is blocked; afterwards neither, whatever happens.", "quantifier": "all commands, attributes, answers of the kernel, mounts, and sequences of commands", "why_tests_cant": "Needs kernels with tokens in user namespaces, interrupted verification, and failures at each system call.", "anchors": ["internal/sys/syscall_other.go:BPF", "internal/sys/token.go:tokenAttr", "internal/sys/token.go:getToken", "internal/sys/token.go:findToken", "internal/sys/token.go:newToken", "internal/sys/token.go:Token.Capable", "internal/sys/signals.go:maskProfilerSignal", "internal/sys/signals.go:unmaskProfilerSignal", "internal/sys/signals.go:sigsetAdd"]}
{"id": "C103", "title": "Walking over pins", "statement": "WalkDir yields objects each of which is at the path given with it when it is opened, in the order of the paths, none twice, even if pins come and go; then at most one error, and nothing after it or after the caller stops. If there is no error and the caller does not stop, every object that is there all the time is yielded, and there is no error if no system call fails, nothing changes and there are only directories and objects. A pin is open while the caller sees it, and closed afterwards unless it was taken: at any time exactly the pins taken, and the one seen, are open.", "quantifier": "all trees, with changes between any two system calls, failures of any of them, and all callers", "why_tests_cant": "Depends on changes and failures between any two system calls.", "anchors": ["pin/walk_other.go:WalkDir", "pin/load.go:Load", "pin/pin.go:Pin.Take", "internal/sys/syscall_other.go:ObjGetTyped"]}
{"id": "C104", "title": "The limit of locked memory", "statement": "Importing rlimit leaves the limit of locked memory as it was, and no map behind, whatever fails, unless setting it back fails by itself, and never lowers the upper limit. If the process may make maps, RemoveMemlock succeeds and changes nothing on kernels where maps do not count against the limit; on others it succeeds exactly if the process may raise the limit, and then no map of any size is refused because of it; otherwise it reports that and changes nothing. This is so however often it is called. With a token that does not allow maps it does nothing; if it is not known whether the limit counts, it says so.", "quantifier": "all limits, privileges, kernels, failures of system calls, sizes of maps and numbers of calls", "why_tests_cant": "Needs old and new kernels, processes with and without privileges, and system calls that fail.", "anchors": ["rlimit/rlimit_linux.go:detectMemcgAccounting", "rlimit/rlimit_linux.go:RemoveMemlock"]}
{"id": "C105", "title": "The version of the running kernel", "statement": "The version that features and links depend on is the one the kernel put into the vDSO: the address is that of the first pair of the auxiliary vector that tells it, unless the vector ends before; the version is that of the first note with name Linux, type 0 and four bytes, in whichever note section it is, whatever the other notes and sections hold, whatever notes are filled up with, in either byte order. If there is none, that is reported. For any bytes, reading ends, and never gives a version that no note holds; what follows the note makes no difference.", "quantifier": "all auxiliary vectors, sections, notes, byte orders and malformed bytes", "why_tests_cant": "A kernel has one vDSO: tests see a few of them.", "anchors": ["internal/linux/vdso.go:vdsoLinuxVersionCode", "internal/linux/vdso.go:vdsoMemoryAddress", "internal/linux/auxv.go:ReadAuxvPair", "internal/linux/version.go:detectKernelVersion"]}
{"id": "C106", "title": "The number of CPUs", "statement": "Of what the kernel prints for a set of possible CPUs, the library takes the number n exactly if the set is that of the CPUs from 0 to n-1, and refuses every other set: those that do not start at 0 and those with gaps. The number is always positive for what the kernel prints, so buffers for per-CPU values have the size the kernel writes.", "quantifier": "all non-empty sets of CPUs, as ranges printed by the kernel", "why_tests_cant": "A machine has one set of possible CPUs.", "anchors": ["internal/linux/cpu.go:parseCPUs", "internal/linux/cpu.go:ParseCPUsFromFile"]}
{"id": "C107", "title": "Information about a map is the map's", "statement": "Map information has the value of the map in every field that the kernel tells or prints into fdinfo, in whichever order, between whichever other lines and in whichever base they are printed, and 0 in all other fields. On kernels that do not tell anything fdinfo is enough; if it has nothing either, that is an error. Other errors of the kernel, and values in fdinfo that can not be read and that the kernel did not tell, are reported, not taken for 0.", "quantifier": "all maps, kernels that tell or print any part of the fields, and contents of fdinfo", "why_tests_cant": "Needs many kernel versions: each tells other fields.", "anchors": ["info.go:newMapInfoFromFd", "info.go:readMapInfoFromProc", "info.go:scanFdInfoReader"]}
