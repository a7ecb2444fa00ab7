-Q theories Verif
theories/Base/GoInt.v
theories/Base/ListExtra.v
theories/Asm/Model.v
theories/Asm/Spec.v
theories/Asm/Proof.v
theories/Asm/ProofCodec.v
theories/Asm/ProofStream.v
theories/Asm/Metadata.v
theories/Asm/ProofOps.v
theories/Asm/Props.v
theories/Ringbuf/Spec.v
theories/Ringbuf/Model.v
theories/Ringbuf/Proof.v
theories/Ringbuf/Concurrent.v
theories/Ringbuf/ConcProof.v
theories/Ringbuf/Lease.v
theories/Ringbuf/LeaseProof.v
theories/Ringbuf/Drain.v
theories/Ringbuf/Avail.v
theories/Ringbuf/Props.v
theories/Perf/Spec.v
theories/Perf/Model.v
theories/Perf/Proof.v
theories/Perf/Proof2.v
theories/Perf/History.v
theories/Perf/Drain.v
theories/Perf/Props.v
theories/Internal/Math.v
theories/Internal/MathProof.v
theories/Internal/Deque.v
theories/Internal/DequeProof.v
theories/Internal/Props.v
theories/Btf/Strings.v
theories/Btf/StringsSpec.v
theories/Btf/StringsProof.v
theories/Btf/PropsStrings.v
theories/Btf/Wire.v
theories/Btf/WireSpec.v
theories/Btf/WireProof.v
theories/Btf/PropsWire.v
theories/Btf/Names.v
theories/Btf/PropsNames.v
theories/Btf/Types.v
theories/Btf/TypesSpec.v
theories/Btf/TypesProof.v
theories/Btf/PropsTypes.v
theories/Btf/CopyProof.v
theories/Btf/PropsCopy.v
theories/Maps/PerCPU.v
theories/Maps/PropsPerCPU.v
theories/Maps/Iter.v
theories/Maps/IterSpec.v
theories/Maps/PropsIter.v
theories/Maps/Batch.v
theories/Maps/BatchSpec.v
theories/Maps/PropsBatch.v
theories/Maps/Memory.v
theories/Maps/PropsMemory.v
theories/Btf/Decode.v
theories/Btf/DecodeSpec.v
theories/Btf/DecodeRec.v
theories/Btf/DecodeTags.v
theories/Btf/DecodeProof.v
theories/Btf/PropsDecode.v
theories/Btf/Encode.v
theories/Btf/EncodeSpec.v
theories/Btf/EncodeProof.v
theories/Btf/EncodeRun.v
theories/Btf/EncodeImage.v
theories/Btf/EncodeLoop.v
theories/Btf/EncodeTotal.v
theories/Btf/EncodeWire.v
theories/Btf/EncodeIso.v
theories/Btf/EncodeDone.v
theories/Btf/PropsEncode.v
theories/Btf/Dedup.v
theories/Btf/DedupSpec.v
theories/Btf/DedupProof.v
theories/Btf/DedupHistory.v
theories/Btf/PropsDedup.v
theories/Btf/Format.v
theories/Btf/FormatSpec.v
theories/Btf/FormatProof.v
theories/Btf/PropsFormat.v
theories/Btf/ExtInfo.v
theories/Btf/ExtInfoSpec.v
theories/Btf/ExtInfoProof.v
theories/Btf/ExtInfoLoad.v
theories/Btf/PropsExtInfo.v
theories/Btf/PropsAssign.v
theories/Btf/PropsMarshalExt.v
theories/Btf/NameIndex.v
theories/Btf/PropsNameIndex.v
theories/Core/Fixup.v
theories/Core/PropsFixup.v
theories/Core/Compat.v
theories/Core/CompatSpec.v
theories/Core/CompatProof.v
theories/Core/PropsCompat.v
theories/Core/Field.v
theories/Core/FieldSpec.v
theories/Core/FieldProof.v
theories/Core/PropsField.v
theories/Core/Relocate.v
theories/Core/PropsRelocate.v
theories/Link/Flatten.v
theories/Link/PropsFlatten.v
theories/Coll/Loader.v
theories/Coll/LoaderSpec.v
theories/Coll/LoaderProofs.v
theories/Coll/Collection.v
theories/Coll/CollectionProofs.v
theories/Coll/PropsColl.v
theories/Internal/Feature.v
theories/Internal/FeatureProof.v
theories/Internal/Version.v
theories/Internal/PropsFeature.v
theories/Internal/Kallsyms.v
theories/Internal/KallsymsSpec.v
theories/Internal/KallsymsProof.v
theories/Internal/KsymProof.v
theories/Internal/PropsKallsyms.v
theories/Internal/Kconfig.v
theories/Internal/KconfigSpec.v
theories/Internal/KconfigParse.v
theories/Internal/KconfigProof.v
theories/Internal/KconfigResolve.v
theories/Internal/PropsKconfig.v
theories/Elf/Sections.v
theories/Elf/PropsSections.v
theories/Elf/Programs.v
theories/Elf/ProgramsSpec.v
theories/Elf/ProgramsProof.v
theories/Elf/ProgramsStep.v
theories/Elf/PropsPrograms.v
theories/Elf/PropsProgramsLoad.v
theories/Elf/PropsProgramsEx.v
theories/Elf/Data.v
theories/Elf/PropsData.v
theories/Elf/PropsDataEx.v
theories/Elf/BtfMaps.v
theories/Elf/BtfMapsSpec.v
theories/Elf/BtfMapsProof.v
theories/Elf/PropsBtfMaps.v
theories/Elf/PropsMaps.v
theories/Elf/PropsMapsEx.v
theories/Prog/VerifierError.v
theories/Prog/VerifierErrorSpec.v
theories/Prog/VerifierErrorProof.v
theories/Prog/PropsVerifierError.v
theories/Prog/Load.v
theories/Prog/LoadSpec.v
theories/Prog/LoadProof.v
theories/Prog/PropsLoad.v
theories/Prog/PropsLoadBtf.v
theories/Epoll/Poller.v
theories/Epoll/PollerProofs.v
theories/Epoll/PropsPoller.v
theories/Link/Fixups.v
theories/Link/FixupsSpec.v
theories/Link/FixupsProof.v
theories/Link/PropsFixups.v
theories/Probe/Exec.v
theories/Probe/ExecSpec.v
theories/Probe/PropsExec.v
theories/Probe/Event.v
theories/Probe/EventSpec.v
theories/Probe/PropsEvent.v
theories/Probe/Attach.v
theories/Probe/AttachSpec.v
theories/Probe/PropsAttach.v
theories/Pin/Pin.v
theories/Pin/PinSpec.v
theories/Pin/PropsPin.v
theories/Pin/PropsName.v
theories/Enc/Sysenc.v
theories/Enc/SysencSpec.v
theories/Enc/PropsSysenc.v
theories/Fd/Fd.v
theories/Fd/FdSpec.v
theories/Fd/PropsFd.v
theories/Mem/Unsafe.v
theories/Mem/UnsafeSpec.v
theories/Mem/PropsUnsafe.v
theories/Btf/Datasec.v
theories/Btf/DatasecSpec.v
theories/Btf/PropsDatasec.v
theories/Prog/Target.v
theories/Prog/TargetSpec.v
theories/Prog/PropsTarget.v
theories/Prog/Run.v
theories/Prog/RunSpec.v
theories/Prog/PropsRun.v
theories/Kernel/Cache.v
theories/Kernel/CacheSpec.v
theories/Kernel/PropsCache.v
theories/Link/Cgroup.v
theories/Link/CgroupSpec.v
theories/Link/PropsCgroup.v
theories/Kernel/Iter.v
theories/Kernel/IterSpec.v
theories/Kernel/PropsIter.v
theories/Link/Mprog.v
theories/Link/MprogSpec.v
theories/Link/PropsMprog.v
theories/Sys/Mounts.v
theories/Sys/MountsSpec.v
theories/Sys/PropsMounts.v
theories/Sys/Token.v
theories/Sys/TokenSpec.v
theories/Sys/PropsToken.v
theories/Pin/Walk.v
theories/Pin/WalkSpec.v
theories/Pin/PropsWalk.v
theories/Sys/Rlimit.v
theories/Sys/PropsRlimit.v
theories/Sys/Vdso.v
theories/Sys/VdsoSpec.v
theories/Sys/PropsVdso.v
theories/Sys/Cpus.v
theories/Sys/CpusSpec.v
theories/Sys/PropsCpus.v
theories/Maps/FdInfo.v
theories/Maps/FdInfoSpec.v
theories/Maps/PropsFdInfo.v
