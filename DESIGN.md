# Formal model of cilium/ebpf in Rocq (Coq 8.16.1)

## 1. Method

* The model lives in `rocq/theories/`. Every area of the code has up to four files:
  * `<Area>/Model.v`  - executable Gallina functions, one per Go function; each definition cites file:lines
    in `/repo` and lists its simplifications.
  * `<Area>/Spec.v`   - small, independent vocabulary used to state the properties (no model helpers).
  * `<Area>/Proof.v`  - lemmas.
  * `<Area>/Props.v`  - only the property theorems (each closed by `exact lemma`), each followed by
    `Print Assumptions`, and `Example`s showing that a concrete non-trivial case meets the hypotheses.
* Go integers are `Z`; wherever Go arithmetic can wrap, the wrap is explicit (`wrap32 x = x mod 2^32`,
  `int16 x`, ...; `Base/GoInt.v`). Bytes are `Z` in `[0,256)`; byte slices are `list Z`.
* Go `error` returns are `res A := Ok a | Err e` with an enumerated error; `panic` is a separate constructor
  where the property is about panics.
* Pointers: where identity/aliasing matters (BTF types, metadata), the model uses an explicit heap
  (`nat`-indexed nodes); otherwise values.
* Goroutines: explicit small-step transition systems over atomic steps; properties hold for all
  interleavings (induction over the step relation).
* Loops over unbounded structures are structural recursion or fuel; a fuelled function returns a distinguished
  out-of-fuel value and a theorem bounds the fuel needed.
* When the unchanged code violates a property, the model is kept faithful, the violation is proved as
  `..._refuted` with a concrete witness, and the strongest true variant is proved beside it (see section 5).

## 2. Trusted base

* Coq's kernel (8.16.1) and `coqchk`.
* No axioms of our own. `Print Assumptions` output for each theorem is "Closed under the global context"
  unless listed in section 4.
* The reading of the Go source into Gallina (the code is not executed here). Each `Model.v` cites its lines.
* Assumed behaviour of the environment (kernel, Go runtime, libraries): stated as explicit parameters
  (`Section` variables discharged into theorem hypotheses or function arguments) - e.g. the hash function of
  `maphash`, the contents written by the kernel into rings.

## 3. Plan per property

| id | model | proof |
|----|-------|-------|
| C01-C04 | `Asm/Model.v`: `Instruction.Marshal/Unmarshal`, register nibbles, endianness, special ALU/atomic/call/dword cases, `AppendInstructions` | case analysis on instruction kind, byte-level lemmas for `PutUint16/32`; induction over the stream |
| C05 | opcode getters/setters as `Z.land/lor` | bitwise reasoning (`Z.bits_inj`), class case split |
| C06 | constructors + Marshal | `_refuted` (immediate computed before the atomic op is folded in) plus positive theorem for decoded atomics |
| C07, C10, C51 | iterator, `encodeFunctionReferences` | induction with running offset; `_refuted` for 16 bit truncation |
| C08, C09, C11, C12, C50 | same file, stream transformers | induction over the stream |
| C13 | `Asm/Metadata.v`: linked list with heap cells | refinement to finite map, heap-extension invariant |
| C14 | `Asm/Model.v` platform constants | bitwise |
| C15, C16 | `Ringbuf/Model.v`: `readSample` over double-mapped memory, kernel producer as spec; `Ringbuf/Concurrent.v` all interleavings | induction over records; modular arithmetic; invariant |
| C17, C53 | `Ringbuf/Lease.v`: transition system | invariant over all reachable states |
| C18 | `Ringbuf/Drain.v`, `Perf/Drain.v`: read loop with an environment script | induction on script |
| C19-C21, C54 | `Perf/Model.v`: forward and reverse ring readers, record parser | stream refinement |
| C22 | `Perf/Model.v`: page rounding (ideal log2) | `Z.log2_up` |
| C23 | `Perf/Model.v` CPU slots | `_refuted` for offline CPUs, positive without |
| C24, C25 | `Btf/Strings.v` | invariant on builder, memchr lemmas |
| C26-C28 | `Btf/Wire.v` | bitwise + list induction |
| C29, C30 | `Btf/Encode*.v`: heap of types, Builder.Add, encoder (allocateIDs, deflateType), wire records | invariant on id assignment; records; decoder run on the encoder's output; round trip as isomorphism of rooted graphs |
| C31, C32 | `Btf/Decode*.v`: decoder with memo table | decoder fuel bound; simulation between histories |
| C33, C44, C58 | `Btf/Names.v`, `Btf/NameIndex.v` | index parametric in the hash; `_refuted` for leading `___` |
| C34, C35 | `Btf/Types.v`, `Btf/CopyProof.v`: children iterator, post order traversal, copier | DFS invariants |
| C36 | `Btf/Dedup*.v` | simulation argument: hash tables as a set of admissible merges, invariant over histories, bisimulation; `_refuted` witnesses |
| C37 | `Btf/Types.v` `Sizeof` | fuel 32 loop, exactness |
| C38, C56 | `Core/Fixup.v`, `Core/Relocate.v` | list induction, permutation invariance over map iteration order |
| C39, C40, C57 | `Core/Field.v` | bit arithmetic on byte lists |
| C41 | `Core/Fixup.v` apply | case analysis |
| C42, C43, C55 | `Core/Compat.v` | coinductive relation for compatibility; visited set invariant |
| C45 | `Link/Flatten.v` | worklist termination measure, reachability |
| C46, C47 | `Maps/PerCPU.v`, `Maps/Memory.v` | list lemmas |
| C48, C49 | `Internal/Deque.v`, `Internal/Math.v` | refinement to list; arithmetic |
| C52 | `Ringbuf/Avail.v` | interleaving of two loads |
| C59 | `Btf/Format.v`: declaration as syntax tree; `Btf/FormatSpec.v`: Go's layout rules | induction on depth; running offset |
| C60, C61 | `Btf/ExtInfo.v`: readers as functions of byte lists, sort.Slice and map order as parameters; `Btf/ExtInfoSpec.v`: kernel's format | induction on sections; decoder invariants of C31; C29 round trip |
| C62 | `Btf/ExtInfo.v`: assignMetadata | induction on instructions with sorted queues |
| C63 | `Maps/Iter.v`: Next against a time dependent kernel; `Maps/IterSpec.v`: kernel maps, hash buckets | counter as measure; cursor stays in front of the entry |
| C64, C65 | `Maps/Batch.v`: batchLookup against a kernel state machine; `Maps/BatchSpec.v`: the two kernel implementations | cursor invariant (position in list, bucket number); per key accounting |
| C66, C67, C68 | `Coll/Loader.v`: loader against an oracle of failures, with a log of events; `Coll/LoaderSpec.v`: valid logs | invariant relating log and loader state, with the set of populated maps; induction on instructions, contents, fields, orders |
| C69 | `Coll/Collection.v`: Collection, ebpfFields on a heap of structs | permutation accounting per operation; mutual induction with fuel |
| C70 | `Internal/Feature.v`: double checked locking, per key, small steps | inductive invariant over all interleavings |
| C71 | `Internal/Version.v` | arithmetic |
| C72 | `Internal/Kallsyms.v`: the line scanner, words, hexadecimal numbers, the loop over lines, the cache; `Internal/KallsymsSpec.v`: the kernel's format and the meaning of a lookup | print/parse round trip; loop invariant over prefixes of the table; induction over the calls |
| C73 | `Internal/Kallsyms.v`: resolution of untyped references and populateKallsyms | from C72 with an invariant of the cache |
| C74 | `Internal/Kconfig.v`: strconv.ParseInt and ParseUint, Parse, PutValue, resolveKconfig; `Internal/KconfigSpec.v`: numerals, values, the file, layouts | positional numerals against Horner's scheme; invariant of the loop over lines; writes to disjoint variables, uniqueness of the contents |
| C75 | `Elf/Sections.v`: the table (generated from elf_sections.go), getProgType, matchSectionName; the patterns' meaning as an inductive relation in `Elf/PropsSections.v` | the table is sorted so that earlier entries are more specific (decided by computation on the table); induction for every name |
| C76 | `Elf/Programs.v`: classification of sections, symbols, relocations, relocateInstruction, loadFunctions, loadProgramSections; specification after the psABI in `Elf/ProgramsSpec.v` | soundness and completeness of every step against the relation resolved, induction over instructions, symbols and sections; C45 for linking |
| C77 | `Elf/Data.v`: loadDataSections with variables, BTF annotations and the references counted by loadRelocations; specification at the head of `Elf/PropsData.v` | invariants of the two maps over any order of sections and symbols; success is equivalent to a condition on the file alone |
| C78 | `Elf/BtfMaps.v`: mapSpecFromBTF and its helpers over the type graph of `Btf/Types.v`; specification in `Elf/BtfMapsSpec.v` | the state after any prefix of the members is a function of the members found so far; acceptance as an equivalence |
| C79 | `Elf/BtfMaps.v`: loadMaps, sectionVars, loadBTFMaps, with the orders of iteration as parameters; specification at the head of `Elf/PropsMaps.v` | a general lemma on loops which fill a map and fail on duplicates; counting gives the bijection of symbols and variables; the definition determines the map |
| C80 | `Prog/Load.v`: the load loop, retryLogAttrs and programLoadError over an arbitrary kernel (a function of call number and attributes); `Prog/LoadSpec.v` says what a kernel with a verifier does | invariants of the loop: the number of doublings left, the hint; the markers by a lemma on the last 256 bytes |
| C81 | `Prog/VerifierError.v`: ErrorWithLog, Error, Format; `Prog/VerifierErrorSpec.v`: relations between texts and lines | induction over texts; the relations are shown to be functional |
| C82 | `Prog/Load.v`: NewHandleFromRawBTF | the buffer size strictly increases |
| C83 | `Epoll/Poller.v`: Wait, Add, Flush, Close of internal/epoll/poller.go as steps of any number of goroutines | inductive invariant over reachable states (mutex owners, open descriptors, counters), per-call invariants over suffixes of executions, a decreasing measure |
| C84, C85 | `Link/Fixups.v`: resolveKconfigReferences, applyTypedKsymFixups, fixupAndValidate, fixupKfuncs and their use in prog.go; objects are numbered as they are opened | induction over the instructions; the iterator loop is shown equal to a recursion |
| C86 | `Probe/Exec.v`: Executable of link/uprobe.go, addresses of uprobe_multi.go; `Probe/ExecSpec.v`: segments and functions of an ELF file | induction over symbols and segments; permutations for map iteration; sessions for sync.Once |
| C87 | `Probe/Event.v`: names, groups, tokens and lines of internal/tracefs; `Probe/EventSpec.v`: the kernel's parser and the regular expressions | round trip through the parser |
| C88 | `Probe/Attach.v`: Kprobe, Uprobe, NewEvent, attachPerfEvent and Close with a kernel that answers arbitrarily; `Probe/AttachSpec.v`: logs of requests, what is left behind | a specification for each function, composed along the log |
| C89, C90 | `Pin/Pin.v`: Pin, Unpin, LoadPinnedMap, Load, Compatible, createMap, newMapWithOptions, finalize as trees of system calls, with a kernel of objects, pins and descriptors; `Pin/PinSpec.v`: runs with failures, interleavings, kills | case analysis over the calls; rely-guarantee proofs for each function and an invariant over interleavings |
| C91 | `Enc/Sysenc.v`: Go types with their layout, Marshal, Unmarshal, unsafeBackingMemory, encoding/binary, SyscallOutput; `Enc/SysencSpec.v`: contents, padding, clean values | induction over types: leaves are sorted and disjoint, and cover memory exactly if there is no padding |
| C92 | `Fd/Fd.v`: FDs, numbers and identities of descriptors, the steps of the methods, the collector; `Fd/FdSpec.v`: initial states, careful runs | inductive invariant of ownership over all interleavings; counterexamples as explicit runs |
| C93 | `Mem/Unsafe.v`: Go types with size and alignment, checkType, VariablePointer, allocate, mmap over heap objects, finalizers; `Mem/UnsafeSpec.v`: types that can be shared, runs with the collector | induction over types; inductive invariant over the heap |
| C94 | `Btf/Datasec.v`: symbolOffsets, loadSpecFromELF, fixupDatasec, fixupDatasecLayout, Copy, TypeByID on data sections; `Btf/DatasecSpec.v`: consecutive layout, section sizes and symbols of the file | induction over sections, symbols and variables; repair is idempotent, so that histories don't matter |
| C95 | `Prog/Target.v`: findProgramTargetInKernel, findTargetInKernel, findTargetInModule, HandleIterator, NewHandleFromID, Cache (one user) over a kernel that changes with every system call; `Prog/TargetSpec.v`: unique types, modules present throughout, histories of the kernel | invariant of the iteration: one open handle, all earlier modules lack the type; bounded IDs for termination |
| C96 | `Prog/Run.v`: run, Test and the kernel's BPF_PROG_TEST_RUN with interruptions; `Prog/RunSpec.v`: when kernels can be interrupted, what the output is | induction over attempts; case analysis of the kernel's reply |
| C97 | `Kernel/Cache.v`: Cache with its mutex, goroutines taking one step at a time, memory of slices, modules coming and going; `Kernel/CacheSpec.v`: what may happen after a history; races | invariants over reachable states, for the lock and for what is cached; a measure for the number of steps |
| C98 | `Link/Cgroup.v`: AttachCgroup, Update, Close with and without bpf_link, the kernel's list of programs of a cgroup, descriptors; `Link/CgroupSpec.v`: which entries belong to which links; histories with others | invariant over reachable states: the entries that belong to open links are theirs, in order |
| C99 | `Kernel/Iter.v`: Next, Take, Close of link.Iterator and btf.HandleIterator against objects that change with time; `Kernel/IterSpec.v`: histories, objects that are always there | invariant over reachable states; induction over the rounds of the loop |
| C100 | `Link/Mprog.v`: flags and descriptors of anchors, AttachTCX, RawAttachProgram, RawDetachProgram, UpdateArgs, Close, QueryPrograms; the kernel's bpf_mprog_attach, detach and query; `Link/MprogSpec.v`: where an entry goes, well-formed states | case analysis by anchor; positions in lists; each call keeps states well-formed |
| C101 | `Sys/Mounts.v`: lines, fields, unescaping, filtering, findTracefsInEntries; `Sys/MountsSpec.v`: what the kernel writes for a mount | words and spaces; unescaping inverts escaping; induction on the mounts |
| C102 | `Sys/Token.v`: BPF, tokenAttr, getToken, findToken, newToken, Capable, masking of signals, sigsetAdd; `Sys/TokenSpec.v`: what histories of system calls look like | case analysis on the answers of the kernel; induction on attempts, mounts and commands |
| C103 | `Pin/Walk.v`: WalkDir, Load, Take, closing; io/fs.WalkDir of the Go library; a tree that changes with every system call; `Pin/WalkSpec.v`: order of paths, descriptors held | a part of a walk as a record of facts that composes; induction on depth and entries |
| C104 | `Sys/Rlimit.v`: detectMemcgAccounting, RemoveMemlock; prlimit and the memory that maps lock | case analysis; induction on the calls |
| C105 | `Sys/Vdso.v`: ReadAuxvPair, vdsoMemoryAddress, vdsoLinuxVersionCode, detectKernelVersion on lists of bytes | induction on notes and sections (elf(5) as relation in `Sys/VdsoSpec.v`); induction on the loop for any bytes |
| C106 | `Sys/Cpus.v`: parseCPUs, strings.Trim, Sscanf of two numbers with a dash | induction on digits and ranges; what the kernel prints as relation (`Sys/CpusSpec.v`) |
| C107 | `Maps/FdInfo.v`: scanFdInfoReader, readMapInfoFromProc, newMapInfoFromFd on lines of bytes | induction on the lines; what the kernel prints as relation (`Maps/FdInfoSpec.v`); numerals of C74 |

## 4. What is modelled and what is not

Modelled: the functions cited in the comments of the model files. In short: `asm/` (instruction codec, streams, references,
metadata; not the textual formatter), `ringbuf/`, `perf/` (ring readers, record parser, drain and pause logic; not
perf_event_open), `btf/` (string table, wire codec, decoder without base, builder, encoder, deduplication, copy, traversal,
sizes, names, CO-RE, Go formatter, .BTF.ext), `linker.go` (flattenInstructions, program references), `memory.go`/`variable.go`,
`marshalers.go` (per-CPU values), `map.go` (iterators and batch lookups, with the kernel's hash and array maps as specification),
`collection.go` (loader, Assign, Detach, Close; not populateStructOps), `internal/` (deque, math, feature tests, versions, kallsyms, kconfig), `elf_reader.go` (types of program sections, symbols, relocations, programs, data sections, maps), `prog.go` (the load loop and its errors), `internal/errors.go`, `btf/handle.go` (loading BTF), `internal/epoll/poller.go`, `linker.go` (references to the kernel), `link/uprobe.go`, `link/uprobe_multi.go` (finding symbols), `internal/tracefs` (events), `link/kprobe.go`, `link/perf_event.go` (attaching and closing probes), `internal/sys/pinning_other.go`, `map.go` (creating and pinning maps), `pin/load.go`, `internal/sysenc` (layout, Marshal, Unmarshal, SyscallOutput), `internal/sys/fd*.go` (with the garbage collector), `memory_unsafe.go`, `btf/btf.go` (data sections of ELF files), `prog.go` (attach targets, running programs), `btf/kernel.go` (Cache), `link/cgroup.go`, `link/link.go` (Iterator), `btf/handle.go` (HandleIterator), `link/tcx.go`, `link/netkit.go`, `link/anchor.go`, `link/query.go`, `link/program.go`, `internal/mountinfo/mountinfo.go`, `internal/sys/token.go`, `internal/sys/signals.go`, `pin/walk_other.go`, `pin/load.go`, `pin/pin.go`, `rlimit/rlimit_linux.go`, `internal/linux/{vdso,auxv,version,cpu}.go`, `info.go` (information about maps).

Not modelled: system calls themselves, ELF parsing by the standard library's `debug/elf`, reflection (a codec is a
parameter), text formatting of instructions and types, feature probes' programs, garbage collection and finalizers except for C92 and C93 (their
absence of effect is assumed).

## 5. Assumptions listed by `Print Assumptions`

Every theorem named in `MANIFEST.json` is followed in its file (or covered, for lemmas it rests on) by the kernel's report
"Closed under the global context": none depends on an axiom, not even one of the standard library. (The list of
axioms which `vcheck` prints for the whole development contains only those of `Coq.ssr.ssrunder`, which are loaded with the
standard library's ssreflect files and used by no theorem.)

## 6. Disagreements between the property and the code (refuted properties)

Each `_refuted` theorem evaluates the model on a concrete witness (or a family). Generated from `MANIFEST.json`.

* **C06 Atomic constructors keep their operation when encoded** (claimed partial): `C06_constructors_lose_operation_refuted`. The property is false of the code: Marshal computes the immediate before folding the atomic operation into Constant. Proved: what the constructors really write, that every non-Add operation decodes as Add (refutation), and the positive statement for decoded atomics.
* **C18 Flush and deadline errors are reported only after the ring is drained** (claimed partial): `C18_perf_overwritable_refuted`. Proved for ringbuf and for non-overwritable perf readers; refuted for an overwritable perf reader resumed during a read.
* **C23 Perf reader attaches each event to its own CPU** (claimed partial): `C23_slots_refuted`. Slots are right when the online CPUs come first; refuted when an offline CPU precedes an online one.
* **C27 BTF blob header validation** (claimed partial): `C27_large_blob_refuted`. Proved for blobs below 4 GiB; refuted for larger blobs, where section bounds wrap in 32 bits and the loader panics.
* **C29 BTF types survive encode/decode** (claimed proved): `C29_refuted_wide_int`, `C29_refuted_bitfield_offset`, `C29_refuted_vlen`. For every history of Add/addString calls over a finite, possibly cyclic heap of types the wire format can hold (spec predicate `encodable`), Marshal succeeds, the blob (if < 4 GiB) loads, and every ID returned by Add denotes, after any history of lookups, a graph isomorphic to the one added. Options nil, no deduplication. The refuted theorems exhibit types outside `encodable` which are silently changed.
* **C30 Builder IDs are stable and dense** (claimed proved): `C30_refuted_placeholder`, `C30_refuted_decl_tag`. IDs are the positions of first addition; the numbering used by Marshal extends them, is injective, and record i describes type i (with decl tags as extra records and no other records).
* **C32 Type decoding results do not depend on earlier failed queries** (claimed partial): `C32_refuted`. The full statement is false (C32_refuted): after TypeByID of a malformed struct failed, a type that refers to it is handed out with the partial struct. Proved: for types that need only well formed records, and after histories without failures.
* **C33 Lookup by name is exact despite hash collisions** (claimed partial): `C33_prefix_refuted`, `C33_hash_refuted`. For every hash function and history: exactly the types with the essential name, in ID order, or ErrNotFound. Not for names that start with ___: those are indexed under the empty name and not found (C33_prefix_refuted). A type that can't be decoded makes lookups of other names fail, depending on the random hash (C33_hash_refuted).
* **C35 Copy produces an isomorphic disjoint graph** (claimed proved): `C35_decl_tag_refuted`. For graphs of the types a user can construct; refuted for explicit decl tag nodes (obtainable only by TypeByID of a decl tag record), whose copy keeps pointing at the original.
* **C36 Type deduplication only merges equivalent types** (claimed partial): `C36_refuted_bitfield`, `C36_refuted_linkage`, `C36_refuted_tags`, `C36_refuted_enum`, `C36_refuted_cycle`, `C36_refuted_hang`. Proved for every history of additions and every hash function: if every cycle goes through a struct or union with a single definition, no addition which returns fails, and every type stays equivalent (bisimilar) to what it was, up to enum sizes, bitfield widths, tags, function linkage and datasec sizes. The unrestricted property is refuted: those attributes are lost, a cyclic struct can replace a different one of the same name, and a self-referential function pointer is hashed forever.
* **C37 Sizeof is exact or an error** (claimed proved): `C37_zero_size_overflow_refuted`. Sizeof never returns a wrong size; a zero-sized array of arrays with overflowing outer dimensions is an error although its size is 0.
* **C38 CO-RE picks a best target and rejects ambiguity** (claimed proved): `C38_order_refuted`, `C38_poison_refuted`. Generic in the computation of one fixup. Beyond the claim: whether ambiguity is reported depends on the order of the targets (C38_order_refuted), and agreement ignores poisoning (C38_poison_refuted).
* **C39 CO-RE bitfield shifts extract the field** (claimed proved): `C39_straddle_refuted`. For fields within the load, as the property says. A packed bitfield that straddles its storage unit gets a wrong value and no error (C39_straddle_refuted).
* **C40 CO-RE field offsets are layout offsets** (claimed proved): `C40_anonymous_refuted`, `C40_alignof_refuted`. Offsets below 2^32 bits. Beyond the claim: an accessor ending at an anonymous member is relocated to the start of the enclosing struct (C40_anonymous_refuted), and a bitfield of a self-referential array type recurses forever (C40_alignof_refuted).
* **C41 CO-RE fixups only touch the relocated operand** (claimed proved): `C41_symbol_lost_refuted`. A poisoned instruction loses its symbol and other metadata.
* **C45 Linking pulls in each called function exactly once** (claimed proved): `C45_recursion_refuted`. A program that calls itself, directly or not, is appended to itself and then has duplicate symbols (C45_recursion_refuted); the property as stated covers it (reachable programs are appended once), C45_resolves excludes it. Flattening does not modify the metadata.
* **C49 Alignment and clamping helpers** (claimed partial): `C49_align_negative_refuted`, `C49_ispow_minint_refuted`. Proved for non-negative arguments of every Go integer type; refuted for negative arguments of the signed instances.
* **C51 Limit of symbolic jumps: far targets are not detected** (claimed proved): `C51_far_jump_refuted`. Negative result.
* **C52 AvailableBytes is the number of unreleased bytes** (claimed partial): `C52_available_nonnegative_refuted`. True at a single moment; refuted when a reader runs between the two loads (negative result).
* **C53 Ring memory is only accessed while mapped** (claimed partial): `C53_available_after_close_refuted`. True of leases; AvailableBytes after Close reads unmapped memory (refuted).
* **C54 Perf reader continues with the next record after an unknown one** (claimed partial): `C54_unknown_event_resync_refuted`. Refuted: only the 8 byte header is consumed.
* **C55 bpf_core_type_matches follows the documented relation** (claimed partial): `C55_anonymous_refuted`, `C55_pointer_refuted`, `C55_forward_refuted`. C55_exact characterises what the code accepts. It isn't the documented relation: a struct with two anonymous members doesn't match itself, types behind pointers are compared with their members, and a pointer to a forward declaration matches a pointer to a struct of any name. Sound if those names agree; reflexive if member names are distinct.
* **C58 Lookup by full name** (claimed partial): `C58_flavours_refuted`, `C58_empty_refuted`. Proved if at most one type has the same essential name and another full name. With two flavours the loop that filters by full name skips an element after each deletion, so that a type of another name is returned (C58_flavours_refuted); with one flavour an empty list without error is returned and AnyTypeByName panics (C58_empty_refuted). fixupDatasec is modelled in C94.
* **C59 A generated Go declaration has the C layout** (claimed partial): `C59_refuted_packed`, `C59_refuted_flexible`, `C59_refuted_empty_union`, `C59_refuted_int`. Proved for all type graphs laid out in order and without overlap whose declared Go type needs no padding of Go's own (natural alignment; C59_packed drops the alignment condition and gives the layout without Go's padding). Refuted without it: packed structs, trailing flexible array members, an empty union (panic) and ints of 3 bytes. The text is modelled as a syntax tree.
* **C60 Loading .BTF.ext** (claimed partial): `C60_refuted_header`, `C60_refuted_duplicate`, `C60_refuted_no_lines`. Proved for all well formed files (any number of sections, any earlier queries of the types, any correct sort.Slice, any map order). Refuted as stated: a file with the 24 byte header (no CO-RE) at the end of the section isn't accepted or reads other bytes as CO-RE header (binary.Size of a pointer to a pointer is -1); of two sections with the same name only the last is kept; an empty line info subsection makes loading fail.
* **C62 Metadata ends up on its instruction** (claimed partial): `C62_refuted_unaligned`, `C62_refuted_duplicate`. Proved if the entries are sorted, distinct and each is for the start of an instruction. Otherwise refuted: an entry between instructions or a duplicate blocks all which follow.
* **C63 Iterating over a map** (claimed proved): `C63_refuted_wrap`, `C63_refuted_missed`, `C63_refuted_once`. The kernel is an arbitrary oracle in C63_ends and C63_stays; the hash map of C63_hash follows kernel/bpf/hashtab.c (buckets, new elements at the head, restart if the cursor is gone). Beyond the claim: max_entries = 2^32 - 1 makes Next loop forever (C63_refuted_wrap); an entry which is rewritten can be missed without an error, one nobody touched can be returned twice.
* **C64 Batch lookup is complete** (claimed partial): `C64_refuted_empty`, `C64_refuted_retry`. Kernel side as in generic_map_lookup_batch and __htab_map_lookup_and_delete_batch. For arrays the first call must neither fail nor be empty: otherwise the cursor is left zeroed but non-nil, and the next call skips element 0 (C64_refuted_empty, C64_refuted_retry). Unmarshalling is covered by C46.
* **C68 Maps are populated exactly once** (claimed partial): `C68_refuted_lazy`, `C68_refuted_fields`, `replacement_populated_refuted`. Proved for NewCollection, and for LoadAndAssign for all maps needed directly by the fields. Refuted: a map of maps which a program of a program array needs is populated or not depending on Go's map iteration; on error the fields hold closed objects although the documentation says that the struct is updated after populating. Replacement maps are populated if and only if they hold maps or programs. populateStructOps is a step which leaves contents alone.
* **C69 One owner for every object of a collection** (claimed partial): `C69_refuted_recursion`. Fields of structs are found whenever the structs are not cyclic. The guard against recursion never triggers since visited is never written to: a cyclic struct overflows the stack (C69_refuted_recursion).
* **C71 Kernel versions** (claimed proved): `C71_refuted_wrap`. Kernel versions with major or minor above 255 wrap (C71_refuted_wrap): the claim is for those below. Parsing (Sscanf) is not modelled.
* **C72 Addresses of kernel symbols** (claimed proved): `C72_refuted_stale`, `C72_refuted_untouched`. Only ASCII spaces are trimmed. The process wide cache is sequential (sync.Map operations of concurrent lookups are not interleaved). The cache outlives changes of the kernel: symbols of modules loaded after a lookup are not found, reloaded modules have old addresses (C72_refuted_stale). A failed lookup can change the caller's map (C72_refuted_untouched).
* **C73 References to kernel symbols** (claimed partial): `C73_refuted_weak`, `C73_refuted_typed`. True of single programs. Collections are refused in cases where each program alone can be loaded: weak references to hidden symbols (C73_refuted_weak) and typed references to ambiguous names (C73_refuted_typed), since populateKallsyms looks all of them up and passes all errors on. Typed references (BTF IDs) are not modelled.
* **C74 Kernel configuration** (claimed proved): `C74_lone_quote_refuted`, `C74_quotes_refuted`, `C74_terminated_refuted`, `C74_typedef_refuted`, `C74_layout_refuted`. For texts which are not a lone quote and whose contents do not begin or end with quotes, and layouts where a variable's size is that of its type. Outside: contents lose quotes at their ends (C74_quotes_refuted), a lone quote is an empty string (C74_lone_quote_refuted), too long strings are cut off without a terminating zero (C74_terminated_refuted), the kernel version must not be behind a typedef (C74_typedef_refuted), and a section too small for its variables makes loading panic (C74_layout_refuted). Decompression, underscores in numbers (Go accepts them, the model does not), and finding the file are not modelled.
* **C75 Section names determine program types** (claimed proved): `C75_exact_refuted`. Names are bytes. Patterns without a mark admit every continuation of a name, so that a section tcp_congestion is a classifier (C75_exact_refuted; libbpf wants the exact name).
* **C76 Programs of an object file** (claimed proved): `C76_function_pointer_refuted`, `C76_addend_refuted`, `C76_call_addend_refuted`, `C76_negative_refuted`, `C76_alias_refuted`, `C76_truncated_refuted`. debug/elf, which splits the file into sections and symbols, is not modelled, nor are line and function infos here (C60). The hypotheses regular and usual_file say what compilers emit; the refuted theorems show what happens beyond: addends of named symbols and the value of a symbol whose address is taken are ignored, a call to before the section is a call of its first function, of two names of a function one is lost, truncated sections are not noticed.
* **C77 Variables of an object file** (claimed proved): `C77_order_refuted`, `C77_order_fails_refuted`, `C77_alias_refuted`, `C77_same_name_refuted`. Under the hypotheses regular (C76) and usual_data, which say what compilers emit: no two data symbols at one offset, section names are unique, BTF describes a variable once and in its own section. Beyond them: a static variable named like a global one of another section makes the type, or even success, depend on the order in which sections are visited (C77_order_refuted, C77_order_fails_refuted); of two symbols at one offset one is lost (C77_alias_refuted); sections with the same name overwrite each other (C77_same_name_refuted). BTF is an abstract function from section names to their variables.
* **C78 Map definitions in BTF mean what C says** (claimed proved): `C78_truncated_refuted`, `C78_zero_refuted`, `C78_align_refuted`, `C78_inner_values_refuted`. Under usual_defs: members have distinct names, numbers (other than map_extra) and sizes fit 32 bits, an inner map has no values, the section is aligned to 8. Beyond: numbers are truncated (C78_truncated_refuted), a key_size of 0 beside key is accepted in one order only (C78_zero_refuted), the section's alignment is used as pointer size so that other alignments shift or lose elements (C78_align_refuted), an inner program array takes over contents of the outer one (C78_inner_values_refuted).
* **C79 An object file has exactly the maps it defines** (claimed proved): `C79_alias_refuted`. Under regular (C76) and usual_maps: no two map symbols at one offset (C79_alias_refuted), sections are PROGBITS, the variables of a section have distinct names, definitions are as in C78. Spec.TypeByName is abstract: the data section of a name.
* **C80 The verifier log of a program** (claimed proved): `C80_growing_hints_refuted`, `C80_enospc_refuted`. The kernel is any function satisfying the relation verifies of Prog/LoadSpec.v (valid attributes, ENOSPC if the log does not fit, LogTrueSize since 6.4). A log longer than the kernel's largest buffer is lost together with the errno if the kernel gives hints (C80_too_long_hinted); hints which keep growing reach the bound (C80_growing_hints_refuted); ENOSPC for another reason is taken to be about the log (C80_enospc_refuted). EAGAIN, tokens and haveBPFToBPFCalls are parameters.
* **C81 Errors with a verifier log** (claimed proved): `C81_only_statistics_refuted`. strings.TrimSpace is modelled for ASCII. A log of statistics only is neither shown nor counted (C81_only_statistics_refuted).
* **C82 The log of rejected BTF** (claimed proved): `C82_old_truncates_refuted`. Kernels as in C80; old BTF verifiers as answers_old (no ENOSPC for rejected BTF), for which a longer log is cut without notice (C82_old_truncates_refuted).
* **C83 Waiting for and closing a poller** (claimed proved): `C83_early_refuted`, `C83_far_refuted`, `C83_both_nil_refuted`. Steps are the accesses to shared state; the kernel picks any pending events that fit. Writing to the eventfds does not fail in the model. Wait may report the deadline up to 1 ms early (C83_early_refuted), a deadline 2^31 ms away blocks forever and one 2^32 ms away not at all (C83_far_refuted); two concurrent Close may both return nil (C83_both_nil_refuted).
* **C84 References to the kernel** (claimed proved): `C84_terminates_refuted`, `C84_labels_refuted`. Lookups of types in the kernel are parameters (k_func, k_var). If the last instruction loads the address of a weak function that does not exist, the loop never ends (C84_terminates_refuted); a poisoned call loses its label (C84_labels_refuted).
* **C85 Handles opened for a program load** (claimed proved): `C85_closed_on_error_refuted`. On errors under the condition that no variable of a module is referred to and at most 32767 functions of modules are: otherwise handles leak until the garbage collector closes them (C85_closed_on_error_refuted).
* **C86 Symbols of executables** (claimed proved): `C86_errors_refuted`, `C86_exclusive_refuted`. ELF parsing is a parameter. Only the first caller is told that the file can't be read (C86_errors_refuted); addresses and symbols are not mutually exclusive as documented (C86_exclusive_refuted).
* **C87 Trace events are what was asked for** (claimed proved): `C87_no_symbol_refuted`, `C87_space_refuted`, `C87_newline_refuted`. The kernel's parser is a specification. An address without a symbol, as documented, is refused by tracefs (C87_no_symbol_refuted); paths with white space, also as a byte of another character, are misread (C87_space_refuted), and with a newline become a second command (C87_newline_refuted).
* **C88 Attaching and closing probes** (claimed proved): `C88_leak_refuted`, `C88_close_again_refuted`, `C88_ref_refuted`. The kernel answers arbitrarily, except that the id of an event that exists is not missing. An event leaks if its id can't be read (C88_leak_refuted); closing a link twice is an error if there is an event (C88_close_again_refuted); offsets of reference counters are cut to 32 bits (C88_ref_refuted).
* **C89 Pinning an object moves, and never replaces, pins** (claimed proved): `C89_same_path_refuted`, `C89_foreign_refuted`, `C89_load_refuted`, `C89_leak_refuted`. If others change the pin, Pin to the present path does nothing (C89_same_path_refuted) and other objects are moved or unpinned (C89_foreign_refuted). pin.Load forgets the path (C89_load_refuted). Loading a per-CPU map leaks if the number of CPUs is unknown (C89_leak_refuted).
* **C90 Maps pinned by name are shared by all who create them** (claimed proved): `C90_overwrite_refuted`, `C90_const_refuted`, `C90_left_refuted`. Contents of the specs must agree, and the number of CPUs must be known. Opening an existing map overwrites its data with the contents of the spec (C90_overwrite_refuted); a constant map with contents can't be opened a second time (C90_const_refuted); the pin of a map that can't be filled stays (C90_left_refuted). Of several that race some may fail with EEXIST.
* **C91 Keys and values are the bytes of their Go values** (claimed proved): `C91_nothing_refuted`, `C91_bool_refuted`, `C91_blank_refuted`, `C91_unexported_refuted`, `C91_nan_refuted`. encoding/binary is modelled for little endian machines; endianness is otherwise that of the machine. Size 0 lets anything through (C91_nothing_refuted). A boolean read without copying can be neither true nor false (C91_bool_refuted); blank fields and signalling NaNs are passed on from pointers but not from values (C91_blank_refuted, C91_nan_refuted); unexported fields can be written but make reading panic (C91_unexported_refuted).
* **C92 Descriptors are closed once, by their owner** (claimed proved): `C92_close_refuted`, `C92_disown_refuted`, `C92_use_refuted`. For programs which keep the FD until its methods return (careful in Fd/FdSpec.v), one method at a time per FD. Without: Disown stops the cleanup after the last use of the FD, which may be too late, so that Close can close somebody else's descriptor (C92_close_refuted), a disowned descriptor is closed (C92_disown_refuted), and a system call can hit another descriptor (C92_use_refuted): there is no runtime.KeepAlive.
* **C93 Pointers to variables of BPF programs** (claimed proved): `C93_hole_refuted`, `C93_uintptr_refuted`. Finalizers run once, after the object became unreachable and before its memory is reused. POSIX lets a failing mmap(MAP_FIXED) discard what was mapped: then a part of the Go heap is gone and nothing repairs it (C93_hole_refuted). On 32 bit big endian machines a uintptr is the upper half of a pointer (C93_uintptr_refuted).
* **C94 Sizes and offsets of data sections** (claimed proved): `C94_retry_refuted`, `C94_copy_refuted`, `C94_wrap_refuted`, `C94_same_name_refuted`. Proved for .kconfig below 4 GiB; beyond, offsets overlap (C94_wrap_refuted). What failed once succeeds the next time, with a section that is repaired in part (C94_retry_refuted). Changes to .kconfig get lost when the Spec is copied and the section is looked up in the copy (C94_copy_refuted), as elfData.fixups has the types of the original. Of two ELF sections with one name the last gives the size (C94_same_name_refuted). Sizes and alignments of types are parameters here; C14 has them.
* **C95 What a program attaches to in the kernel** (claimed proved): `C95_ambiguous_refuted`, `C95_leak_refuted`, `C95_struct_ops_refuted`, `C95_unload_refuted`, `C95_reload_refuted`. Proved if no module is replaced by a different one of the same name: the Cache keeps the types of the old one, and the program gets the ID of another type (C95_reload_refuted). A name in vmlinux and in a module, or in two modules, is not refused (C95_ambiguous_refuted). If a lookup in a module fails, a handle stays open until the garbage collector closes it (C95_leak_refuted: the deferred Close is that of a nil handle); for struct_ops in modules one or two do (C95_struct_ops_refuted). An unrelated module that is unloaded during the search makes it fail (C95_unload_refuted).
* **C96 Running a program** (claimed proved): `C96_interrupted_refuted`, `C96_empty_refuted`, `C96_context_refuted`. Proved for buffers for output that are nil or not empty. Before Linux 5.11 a signal during a single execution gives return value 0 and an output of zeros, without an error (C96_interrupted_refuted). A buffer that is empty, but not nil, makes Run panic or gives out whatever memory it has (C96_empty_refuted), and so does a ContextOut without a fixed size (C96_context_refuted). Sizes of 4 GiB or more and the encoding of contexts are not modelled.
* **C97 Cache of kernel types** (claimed proved): `C97_stale_refuted`. C97_history: each event is allowed by a specification given the events before it. Reading the directory and loading are atomic; the reader-writer lock is modelled by what it guarantees (a waiting writer keeps new readers out). What is cached stays when modules come and go: Modules then gives the old list and Module the types of a module that is gone (C97_stale_refuted).
* **C98 Attaching to cgroups** (claimed proved): `C98_override_refuted`, `C98_full_refuted`. One cgroup and attach type, without ancestors; pinned links are not modelled; others detach only what is theirs. Before Linux 5.5 there is no way to keep programs apart: a second AttachCgroup silently replaces the first program, and closing the first link then detaches the program of the second (C98_override_refuted). With 64 programs attached Update fails on kernels without links (C98_full_refuted).
* **C99 Iterating over objects of the kernel** (claimed proved): `C99_endless_refuted`. HandleIterator has no Close; its users close the current handle. While objects come and go all the time Next need not return (C99_endless_refuted): this needs ids to be unbounded, in the kernel they wrap at 2^31.
* **C100 Attaching relative to other programs** (claimed proved): `C100_replace_by_id_refuted`, `C100_revision_refuted`, `C100_unkept_refuted`. One interface and attach type; all programs are of the right type; a link has one descriptor and is not pinned. ReplaceProgramByID never works: the id is passed where the kernel expects a descriptor (C100_replace_by_id_refuted). The kernel starts over with revisions when the last program is gone, so that an expected revision can be met by other programs (C100_revision_refuted). RawAttachProgram and RawDetachProgram do not keep the program of the anchor alive until the system call: C100_raw and C100_detach ask that its descriptor is still the same; if it was the last use, the program can go elsewhere (C100_unkept_refuted).
* **C101 Finding file systems** (claimed proved): `C101_space_refuted`, `C101_shift_refuted`. Strings are lists of code points. Proved for mounts whose paths have no white space that the kernel does not escape: with a no-break space in its name a mount point is cut (C101_space_refuted), and with a carriage return in the name of the directory mounted, what follows it is taken to be the mount point (C101_shift_refuted).
* **C102 BPF system calls and tokens** (claimed proved): `C102_cached_refuted`, `C102_noproc_refuted`, `C102_unblocks_refuted`. The kernel is any function of the system calls so far; one thread. An error while looking for a token is kept, too: after running out of descriptors once, the process cannot load programs any more (C102_cached_refuted); without /proc nothing that may take a token is passed on (C102_noproc_refuted). A caller that had SIGPROF blocked finds it unblocked after loading a program (C102_unblocks_refuted).
* **C103 Walking over pins** (claimed proved): `C103_removed_refuted`, `C103_leak_refuted`. The root and its changes are any function from times to trees. C103_open asks that the number of CPUs can be found; if not, a map with a value per CPU stays open although the caller does not get it (C103_leak_refuted). A pin that somebody removes at the wrong moment ends the walk with an error, and the rest is not seen (C103_removed_refuted).
* **C104 The limit of locked memory** (claimed proved): `C104_unprivileged_refuted`. Nobody else changes the limit meanwhile. A process that may not make maps gets the same errno as one over the limit: on a new kernel RemoveMemlock, documented to do nothing there, fails, or removes the limit if the process may (C104_unprivileged_refuted).
* **C105 The version of the running kernel** (claimed proved): `C105_panics_refuted`. debug/elf is not modelled: sections are given by type and contents. Rounding up a name size of 2147483645 to 2147483647 overflows, and making the buffer panics (C105_panics_refuted).
* **C106 The number of CPUs** (claimed proved): `C106_lax_refuted`. fmt.Sscanf is modelled for this format and ASCII text. Texts that the kernel does not print are taken, even with a negative result (C106_lax_refuted).

## 7. Partial properties

* **C06** (partial): The property is false of the code: Marshal computes the immediate before folding the atomic operation into Constant. Proved: what the constructors really write, that every non-Add operation decodes as Add (refutation), and the positive statement for decoded atomics.
* **C18** (partial): Proved for ringbuf and for non-overwritable perf readers; refuted for an overwritable perf reader resumed during a read.
* **C23** (partial): Slots are right when the online CPUs come first; refuted when an offline CPU precedes an online one.
* **C27** (partial): Proved for blobs below 4 GiB; refuted for larger blobs, where section bounds wrap in 32 bits and the loader panics.
* **C32** (partial): The full statement is false (C32_refuted): after TypeByID of a malformed struct failed, a type that refers to it is handed out with the partial struct. Proved: for types that need only well formed records, and after histories without failures.
* **C33** (partial): For every hash function and history: exactly the types with the essential name, in ID order, or ErrNotFound. Not for names that start with ___: those are indexed under the empty name and not found (C33_prefix_refuted). A type that can't be decoded makes lookups of other names fail, depending on the random hash (C33_hash_refuted).
* **C36** (partial): Proved for every history of additions and every hash function: if every cycle goes through a struct or union with a single definition, no addition which returns fails, and every type stays equivalent (bisimilar) to what it was, up to enum sizes, bitfield widths, tags, function linkage and datasec sizes. The unrestricted property is refuted: those attributes are lost, a cyclic struct can replace a different one of the same name, and a self-referential function pointer is hashed forever.
* **C49** (partial): Proved for non-negative arguments of every Go integer type; refuted for negative arguments of the signed instances.
* **C52** (partial): True at a single moment; refuted when a reader runs between the two loads (negative result).
* **C53** (partial): True of leases; AvailableBytes after Close reads unmapped memory (refuted).
* **C54** (partial): Refuted: only the 8 byte header is consumed.
* **C55** (partial): C55_exact characterises what the code accepts. It isn't the documented relation: a struct with two anonymous members doesn't match itself, types behind pointers are compared with their members, and a pointer to a forward declaration matches a pointer to a struct of any name. Sound if those names agree; reflexive if member names are distinct.
* **C58** (partial): Proved if at most one type has the same essential name and another full name. With two flavours the loop that filters by full name skips an element after each deletion, so that a type of another name is returned (C58_flavours_refuted); with one flavour an empty list without error is returned and AnyTypeByName panics (C58_empty_refuted). fixupDatasec is modelled in C94.
* **C59** (partial): Proved for all type graphs laid out in order and without overlap whose declared Go type needs no padding of Go's own (natural alignment; C59_packed drops the alignment condition and gives the layout without Go's padding). Refuted without it: packed structs, trailing flexible array members, an empty union (panic) and ints of 3 bytes. The text is modelled as a syntax tree.
* **C60** (partial): Proved for all well formed files (any number of sections, any earlier queries of the types, any correct sort.Slice, any map order). Refuted as stated: a file with the 24 byte header (no CO-RE) at the end of the section isn't accepted or reads other bytes as CO-RE header (binary.Size of a pointer to a pointer is -1); of two sections with the same name only the last is kept; an empty line info subsection makes loading fail.
* **C62** (partial): Proved if the entries are sorted, distinct and each is for the start of an instruction. Otherwise refuted: an entry between instructions or a duplicate blocks all which follow.
* **C64** (partial): Kernel side as in generic_map_lookup_batch and __htab_map_lookup_and_delete_batch. For arrays the first call must neither fail nor be empty: otherwise the cursor is left zeroed but non-nil, and the next call skips element 0 (C64_refuted_empty, C64_refuted_retry). Unmarshalling is covered by C46.
* **C68** (partial): Proved for NewCollection, and for LoadAndAssign for all maps needed directly by the fields. Refuted: a map of maps which a program of a program array needs is populated or not depending on Go's map iteration; on error the fields hold closed objects although the documentation says that the struct is updated after populating. Replacement maps are populated if and only if they hold maps or programs. populateStructOps is a step which leaves contents alone.
* **C69** (partial): Fields of structs are found whenever the structs are not cyclic. The guard against recursion never triggers since visited is never written to: a cyclic struct overflows the stack (C69_refuted_recursion).
* **C73** (partial): True of single programs. Collections are refused in cases where each program alone can be loaded: weak references to hidden symbols (C73_refuted_weak) and typed references to ambiguous names (C73_refuted_typed), since populateKallsyms looks all of them up and passes all errors on. Typed references (BTF IDs) are not modelled.
