(** Model of package asm: opcodes, instructions, instruction streams.

    Conventions: OpCode is uint32, Register uint8, Offset int16, Constant int64, all as [Z].
    [x & ^m] on uint32 is [Z.ldiff x m]. *)
From Coq Require Import String.
From Verif Require Import Base.GoInt.
Open Scope Z_scope.

(** * Opcodes *)

(** asm/opcode.go:18-39 *)
Definition classMask := 0x07.
Definition LdClass := 0x00.
Definition LdXClass := 0x01.
Definition StClass := 0x02.
Definition StXClass := 0x03.
Definition ALUClass := 0x04.
Definition JumpClass := 0x05.
Definition Jump32Class := 0x06.
Definition ALU64Class := 0x07.

(** asm/opcode.go:41-67 *)
Definition IsLoad (cls : Z) : bool := (cls =? LdClass) || (cls =? LdXClass).
Definition IsStore (cls : Z) : bool := (cls =? StClass) || (cls =? StXClass).
Definition isLoadOrStore (cls : Z) : bool := IsLoad cls || IsStore cls.
Definition IsALU (cls : Z) : bool := (cls =? ALUClass) || (cls =? ALU64Class).
Definition IsJump (cls : Z) : bool := (cls =? JumpClass) || (cls =? Jump32Class).
Definition isJumpOrALU (cls : Z) : bool := IsJump cls || IsALU cls.

(** asm/opcode.go:99 *)
Definition InvalidOpCode := 0xffff.

(** asm/load_store.go:15-33 *)
Definition modeMask := 0xe0.
Definition InvalidMode := 0xff.
Definition ImmMode := 0x00.
Definition AbsMode := 0x20.
Definition IndMode := 0x40.
Definition MemMode := 0x60.
Definition MemSXMode := 0x80.
Definition AtomicMode := 0xc0.

(** asm/load_store.go:152-166 *)
Definition sizeMask := 0x18.
Definition InvalidSize := 0xff.
Definition DWord := 0x18.
Definition Word := 0x00.
Definition Half := 0x08.
Definition Byte := 0x10.

(** asm/alu.go:13-24 *)
Definition sourceMask := 0x0008.
Definition InvalidSource := 0xffff.
Definition ImmSource := 0x0000.
Definition RegSource := 0x0008.

(** asm/alu.go:29-37 *)
Definition endianMask := sourceMask.
Definition InvalidEndian := 0xff.

(** asm/alu.go:48-92 *)
Definition aluMask := 0x3ff0.
Definition InvalidALUOp := 0xffff.
Definition Add := 0x0000.
Definition Sub := 0x0010.
Definition Mul := 0x0020.
Definition Div := 0x0030.
Definition SDiv := Div + 0x0100.
Definition Or := 0x0040.
Definition And := 0x0050.
Definition LSh := 0x0060.
Definition RSh := 0x0070.
Definition Neg := 0x0080.
Definition Mod := 0x0090.
Definition SMod := Mod + 0x0100.
Definition Xor := 0x00a0.
Definition Mov := 0x00b0.
Definition MovSX8 := Mov + 0x0100.
Definition MovSX16 := Mov + 0x0200.
Definition MovSX32 := Mov + 0x0300.
Definition ArSh := 0x00c0.
Definition Swap := 0x00d0.

(** asm/jump.go:13-49 *)
Definition jumpMask := 0xf0.
Definition InvalidJumpOp := 0xff.
Definition Ja := 0x00.
Definition JEq := 0x10.
Definition JGT := 0x20.
Definition JGE := 0x30.
Definition JSet := 0x40.
Definition JNE := 0x50.
Definition JSGT := 0x60.
Definition JSGE := 0x70.
Definition Call := 0x80.
Definition Exit := 0x90.
Definition JLT := 0xa0.
Definition JLE := 0xb0.
Definition JSLT := 0xc0.
Definition JSLE := 0xd0.
Definition JCOND := 0xe0.

(** asm/load_store.go:35-75 *)
Definition atomicMask := 0x0001ff00.
Definition InvalidAtomic := 0xffffffff.
Definition fetch := 0x00000100.
Definition AddAtomic := Z.shiftl Add 8.
Definition FetchAdd := Z.lor AddAtomic fetch.
Definition AndAtomic := Z.shiftl And 8.
Definition FetchAnd := Z.lor AndAtomic fetch.
Definition OrAtomic := Z.shiftl Or 8.
Definition FetchOr := Z.lor OrAtomic fetch.
Definition XorAtomic := Z.shiftl Xor 8.
Definition FetchXor := Z.lor XorAtomic fetch.
Definition Xchg := Z.lor 0x0000e000 fetch.
Definition CmpXchg := Z.lor 0x0000f000 fetch.
Definition loadAcquire := 0x00010000.
Definition storeRelease := 0x00011000.

(** asm/opcode.go:325-327 *)
Definition valid (value mask : Z) : bool := Z.ldiff value mask =? 0.

(** asm/opcode.go:126-128 *)
Definition Class (op : Z) : Z := Z.land op classMask.

(** asm/opcode.go:131-136 *)
Definition Mode (op : Z) : Z :=
  if negb (isLoadOrStore (Class op)) then InvalidMode else Z.land op modeMask.

(** asm/opcode.go:139-144 *)
Definition OpSize (op : Z) : Z :=
  if negb (isLoadOrStore (Class op)) then InvalidSize else Z.land op sizeMask.

(** asm/opcode.go:147-152 *)
Definition AtomicOp (op : Z) : Z :=
  if negb (Class op =? StXClass) || negb (Mode op =? AtomicMode) then InvalidAtomic
  else Z.land op atomicMask.

(** asm/opcode.go:163-168 *)
Definition ALUOp (op : Z) : Z :=
  if negb (IsALU (Class op)) then InvalidALUOp else Z.land op aluMask.

(** asm/opcode.go:155-160 *)
Definition Source (op : Z) : Z :=
  if negb (isJumpOrALU (Class op)) || (ALUOp op =? Swap) then InvalidSource
  else Z.land op sourceMask.

(** asm/opcode.go:171-176 *)
Definition OpEndianness (op : Z) : Z :=
  if negb (ALUOp op =? Swap) then InvalidEndian else Z.land op endianMask.

(** asm/opcode.go:180-193 *)
Definition JumpOp (op : Z) : Z :=
  if negb (IsJump (Class op)) then InvalidJumpOp
  else let j := Z.land op jumpMask in
       if (Class op =? Jump32Class) && ((j =? Exit) || (j =? Call)) then InvalidJumpOp else j.

(** asm/opcode.go:198-203 *)
Definition SetMode (op mode : Z) : Z :=
  if negb (isLoadOrStore (Class op)) || negb (valid mode modeMask) then InvalidOpCode
  else Z.lor (Z.ldiff op modeMask) mode.

(** asm/opcode.go:208-213 *)
Definition SetSize (op size : Z) : Z :=
  if negb (isLoadOrStore (Class op)) || negb (valid size sizeMask) then InvalidOpCode
  else Z.lor (Z.ldiff op sizeMask) size.

(** asm/opcode.go:215-220 *)
Definition SetAtomicOp (op atomic : Z) : Z :=
  if negb (Class op =? StXClass) || negb (Mode op =? AtomicMode) || negb (valid atomic atomicMask)
  then InvalidOpCode
  else Z.lor (Z.ldiff op atomicMask) atomic.

(** asm/opcode.go:225-230 *)
Definition SetSource (op source : Z) : Z :=
  if negb (isJumpOrALU (Class op)) || negb (valid source sourceMask) then InvalidOpCode
  else Z.lor (Z.ldiff op sourceMask) source.

(** asm/opcode.go:235-240 *)
Definition SetALUOp (op alu : Z) : Z :=
  if negb (IsALU (Class op)) || negb (valid alu aluMask) then InvalidOpCode
  else Z.lor (Z.ldiff op aluMask) alu.

(** asm/opcode.go:245-258 *)
Definition SetJumpOp (op jump : Z) : Z :=
  if negb (IsJump (Class op)) || negb (valid jump jumpMask) then InvalidOpCode
  else let newOp := Z.lor (Z.ldiff op jumpMask) jump in
       if JumpOp newOp =? InvalidJumpOp then InvalidOpCode else newOp.

(** asm/load_store.go:221-223 *)
Definition LoadImmOp (size : Z) : Z := SetSize (SetMode LdClass ImmMode) size.

(** asm/opcode.go:121-123 *)
Definition IsDWordLoad (op : Z) : bool := op =? LoadImmOp DWord.

(** asm/opcode.go:114-119 *)
Definition rawInstructions (op : Z) : Z := if IsDWordLoad op then 2 else 1.

(** asm/opcode.go:102-110; [None] is the error *)
Definition bpfOpCode (op : Z) : option Z :=
  if negb (valid op 0xff) then None else Some (Z.land op 0xff).

(** asm/load_store.go:99-112 *)
Definition AtomicOp_OpCode (op size : Z) : Z :=
  if existsb (Z.eqb op) [AddAtomic; AndAtomic; OrAtomic; XorAtomic; FetchAdd; FetchAnd; FetchOr;
                         FetchXor; Xchg; CmpXchg] && existsb (Z.eqb size) [Byte; Half]
  then InvalidOpCode
  else SetAtomicOp (SetSize (SetMode StXClass AtomicMode) size) op.

(** asm/jump.go:107-113 *)
Definition Jump_opCode (op class source : Z) : Z :=
  if (op =? Exit) || (op =? Call) then InvalidOpCode
  else SetSource (SetJumpOp class op) source.

(** * Platform tagged constants *)

(** internal/platform/platform.go: Linux, Windows; any other string. [POther] also stands for the
    empty string returned for unknown tags and for [Native] on other systems. *)
Inductive plat := PLinux | PWindows | POther.
Definition plat_eqb (a b : plat) : bool :=
  match a, b with PLinux, PLinux | PWindows, PWindows | POther, POther => true | _, _ => false end.

(** internal/platform/constants.go:8-17 *)
Definition platformShift := 28.
Definition LinuxTag := Z.shiftl 0 platformShift.
Definition WindowsTag := Z.shiftl 1 platformShift.
Definition platformMax := Z.shiftl 1 3 - 1.
Definition platformMask := Z.shiftl platformMax platformShift.

(** internal/platform/constants.go:19-28 *)
Definition tagForPlatform (p : plat) : option Z :=
  match p with PLinux => Some LinuxTag | PWindows => Some WindowsTag | POther => None end.

(** internal/platform/constants.go:30-40 *)
Definition platformForConstant (c : Z) : plat :=
  let tag := Z.land c platformMask in
  if tag =? LinuxTag then PLinux else if tag =? WindowsTag then PWindows else POther.

(** internal/platform/constants.go:45-56; [None] is an error *)
Definition EncodeConstant (p : plat) (c : Z) : option Z :=
  if Z.shiftr c platformShift >? 0 then None
  else match tagForPlatform p with None => None | Some tag => Some (Z.lor tag c) end.

(** internal/platform/constants.go:59-62 *)
Definition DecodeConstant (c : Z) : plat * Z :=
  let v := Z.ldiff c platformMask in (platformForConstant c, v).

(** * Instructions *)

(** asm/instruction.go:37-46. Of the metadata only the entries interpreted by this package are kept:
    symbol and reference ("" when absent, asm/instruction.go:497-526) and the associated map,
    represented by the result of its FD method (asm/instruction.go:528-536, 565-567). The linked list
    behind it is modelled in Asm/Metadata.v. *)
Record instr := mkIns {
  OpCode : Z; Dst : Z; Src : Z; Offset : Z; Constant : Z;
  Symbol : string; Reference : string; MapFD : option Z }.

Definition set_op (i : instr) v := mkIns v (Dst i) (Src i) (Offset i) (Constant i) (Symbol i) (Reference i) (MapFD i).
Definition set_src (i : instr) v := mkIns (OpCode i) (Dst i) v (Offset i) (Constant i) (Symbol i) (Reference i) (MapFD i).
Definition set_off (i : instr) v := mkIns (OpCode i) (Dst i) (Src i) v (Constant i) (Symbol i) (Reference i) (MapFD i).
Definition set_cons (i : instr) v := mkIns (OpCode i) (Dst i) (Src i) (Offset i) v (Symbol i) (Reference i) (MapFD i).
Definition set_ref (i : instr) v := mkIns (OpCode i) (Dst i) (Src i) (Offset i) (Constant i) (Symbol i) v (MapFD i).
Definition set_sym (i : instr) v := mkIns (OpCode i) (Dst i) (Src i) (Offset i) (Constant i) v (Reference i) (MapFD i).
Definition set_map (i : instr) v := mkIns (OpCode i) (Dst i) (Src i) (Offset i) (Constant i) (Symbol i) (Reference i) v.

(** asm/register.go:11-45 *)
Definition R0 := 0.
Definition PseudoMapFD := 1.
Definition PseudoMapValue := 2.
Definition PseudoBtfId := 3.
Definition PseudoCall := 1.
Definition PseudoFunc := 4.
Definition PseudoKfuncCall := 2.

Definition InstructionSize := 8.

(** asm/instruction.go:300-339 *)
Definition IsLoadFromMap (i : instr) : bool :=
  (OpCode i =? LoadImmOp DWord) && ((Src i =? PseudoMapFD) || (Src i =? PseudoMapValue)).
Definition IsFunctionCall (i : instr) : bool := (JumpOp (OpCode i) =? Call) && (Src i =? PseudoCall).
Definition IsKfuncCall (i : instr) : bool := (JumpOp (OpCode i) =? Call) && (Src i =? PseudoKfuncCall).
Definition IsLoadOfFunctionPointer (i : instr) : bool := IsDWordLoad (OpCode i) && (Src i =? PseudoFunc).
Definition IsFunctionReference (i : instr) : bool := IsFunctionCall i || IsLoadOfFunctionPointer i.
Definition IsBuiltinCall (i : instr) : bool :=
  (JumpOp (OpCode i) =? Call) && (Src i =? R0) && (Dst i =? R0).

(** asm/instruction.go:52-54, 486-488 *)
Definition Width (i : instr) : Z := rawInstructions (OpCode i).
Definition Size (i : instr) : Z := u64 (InstructionSize * rawInstructions (OpCode i)).

(** Errors of this package. [EOF] and [EUnexpectedEOF] are io.EOF / io.ErrUnexpectedEOF. *)
Inductive err :=
| EOF | EUnexpectedEOF | EMissingHalf | ENonZeroFields | EConstant | EOpCode | ENotNative
| EAluOffset | ENotMapLoad | EEmptySymbol | EUnreferenced | EDuplicate | EUnsatisfied | EClosedFd
| ENotDirect | ENegativeFd.

(** io.ReadFull(r, make([]byte, n)) on a reader over the remaining bytes (Go standard library):
    io.EOF if nothing was read, io.ErrUnexpectedEOF on a short read. *)
Definition read_full (n : nat) (r : list Z) : res err (list Z * list Z) :=
  match r with
  | [] => Err EOF
  | _ => if Nat.ltb (length r) n then Err EUnexpectedEOF else Ok (firstn n r, skipn n r)
  end.

Definition slice (l : list Z) (a b : nat) : list Z := firstn (b - a) (skipn a l).
Definition byte_at (l : list Z) (i : nat) : Z := nth i l 0.

(** asm/instruction.go:990-1001. Register is uint8: [src << 4] wraps. The model's byte orders are the
    two accepted ones, so the default branch does not exist. *)
Definition newBPFRegisters (dst src : Z) (bo : byteorder) : Z :=
  match bo with
  | LE => Z.lor (u8 (Z.shiftl src 4)) (Z.land dst 0xf)
  | BE => Z.lor (u8 (Z.shiftl dst 4)) (Z.land src 0xf)
  end.

(** asm/instruction.go:65-71 *)
Definition decodeRegs (regs : Z) (bo : byteorder) : Z * Z :=
  match bo with
  | LE => (Z.land regs 0xf, Z.shiftr regs 4)
  | BE => (Z.shiftr regs 4, Z.land regs 0xf)
  end.

(** The fields read by lines 63-77 of asm/instruction.go *)
Definition unmarshalFields (bo : byteorder) (data : list Z) : instr :=
  let regs := decodeRegs (byte_at data 1) bo in
  mkIns (byte_at data 0) (fst regs) (snd regs)
        (i16 (get bo (slice data 2 4))) (i32 (get bo (slice data 4 8)))
        EmptyString EmptyString None.

(** asm/instruction.go:91-115 *)
Definition unmarshalALU (i : instr) : instr :=
  let a := ALUOp (OpCode i) in
  if a =? Div then
    if Offset i =? 1 then set_off (set_op i (SetALUOp (OpCode i) SDiv)) 0 else i
  else if a =? Mod then
    if Offset i =? 1 then set_off (set_op i (SetALUOp (OpCode i) SMod)) 0 else i
  else if a =? Mov then
    if Offset i =? 8 then set_off (set_op i (SetALUOp (OpCode i) MovSX8)) 0
    else if Offset i =? 16 then set_off (set_op i (SetALUOp (OpCode i) MovSX16)) 0
    else if Offset i =? 32 then set_off (set_op i (SetALUOp (OpCode i) MovSX32)) 0
    else i
  else i.

(** asm/instruction.go:79-122 *)
Definition unmarshalOp (p : plat) (i : instr) : res err instr :=
  if IsBuiltinCall i then
    if Constant i >=? 0 then
      match EncodeConstant p (u32 (Constant i)) with
      | None => Err EConstant
      | Some fn => Ok (set_cons i fn)
      end
    else Ok i
  else if IsALU (Class (OpCode i)) then Ok (unmarshalALU i)
  else if (Class (OpCode i) =? StXClass) && (Mode (OpCode i) =? AtomicMode) then
    Ok (set_op i (Z.lor (OpCode i) (Z.land (u32 (Z.shiftl (Constant i) 8)) atomicMask)))
  else Ok i.

(** asm/instruction.go:57-145. Returns the instruction and the unread input. *)
Definition Unmarshal (bo : byteorder) (p : plat) (r : list Z) : res err (instr * list Z) :=
  match read_full 8 r with
  | Err e => Err e
  | Ok (data, r1) =>
    match unmarshalOp p (unmarshalFields bo data) with
    | Err e => Err e
    | Ok i =>
      if negb (IsDWordLoad (OpCode i)) then Ok (i, r1)
      else match read_full 8 r1 with
           | Err _ => Err EMissingHalf
           | Ok (data2, r2) =>
             if negb (get bo (slice data2 0 4) =? 0) then Err ENonZeroFields
             else let cons1 := u32 (Constant i) in
                  let cons2 := i32 (get bo (slice data2 4 8)) in
                  Ok (set_cons i (Z.lor (i64 (Z.shiftl cons2 32)) cons1), r2)
           end
    end
  end.

(** asm/instruction.go:173-195; the resulting (opcode, offset) *)
Definition marshalALU (op off : Z) : res err (Z * Z) :=
  let a := ALUOp op in
  let '(op', newOffset) :=
    if a =? SDiv then (SetALUOp op Div, 1)
    else if a =? SMod then (SetALUOp op Mod, 1)
    else if a =? MovSX8 then (SetALUOp op Mov, 8)
    else if a =? MovSX16 then (SetALUOp op Mov, 16)
    else if a =? MovSX32 then (SetALUOp op Mov, 32)
    else (op, 0) in
  if negb (newOffset =? 0) && negb (off =? 0) then Err EAluOffset
  else Ok (op', newOffset).

(** asm/instruction.go:166-199; the resulting (opcode, offset, imm, Constant) *)
Definition marshalOp (native : plat) (i : instr) : res err (Z * Z * Z * Z) :=
  let imm := i32 (Constant i) in      (* line 155-159: same value for dword loads *)
  if IsBuiltinCall i then
    let '(p, value) := DecodeConstant (u32 (Constant i)) in
    if negb (plat_eqb p native) then Err ENotNative
    else Ok (OpCode i, Offset i, i32 value, Constant i)
  else if IsALU (Class (OpCode i)) then
    match marshalALU (OpCode i) (Offset i) with
    | Err e => Err e
    | Ok (op, off) => Ok (op, off, imm, Constant i)
    end
  else let atomic := AtomicOp (OpCode i) in
       if negb (atomic =? InvalidAtomic) then
         Ok (Z.ldiff (OpCode i) atomicMask, Offset i, imm, Z.shiftr atomic 8)
       else Ok (OpCode i, Offset i, imm, Constant i).

(** asm/instruction.go:148-228, writing to a writer that does not fail; the returned list is what was
    written, its length is the returned count ([Size] is compared with it in the theorems). *)
Definition Marshal (native : plat) (bo : byteorder) (i : instr) : res err (list Z * Z) :=
  if OpCode i =? InvalidOpCode then Err EOpCode
  else
    let isDWordLoad := IsDWordLoad (OpCode i) in
    let regs := newBPFRegisters (Dst i) (Src i) bo in
    match marshalOp native i with
    | Err e => Err e
    | Ok (op, off, imm, constant) =>
      match bpfOpCode op with
      | None => Err EOpCode
      | Some b =>
        let data := [b; regs] ++ put bo 2 (u16 off) ++ put bo 4 (u32 imm) in
        if negb isDWordLoad then Ok (data, InstructionSize)
        else Ok (data ++ put bo 4 0 ++ put bo 4 (u32 (Z.shiftr constant 32)), 2 * InstructionSize)
      end
    end.

(** asm/instruction.go:246-251 *)
Definition encodeMapFD (i : instr) (fd : Z) : instr :=
  let offset := Z.land (u64 (Constant i)) (Z.shiftl 0xffffffff 32) in
  let rawFd := u64 (u32 fd) in
  set_cons i (i64 (Z.lor offset rawFd)).

(** asm/instruction.go:255-257 *)
Definition mapFd (i : instr) : Z := i32 (Constant i).

(** asm/instruction.go:262-274 *)
Definition RewriteMapOffset (i : instr) (offset : Z) : res err instr :=
  if negb (IsDWordLoad (OpCode i)) then Err ENotDirect
  else if negb (Src i =? PseudoMapValue) then Err ENotDirect
  else let fd := Z.land (u64 (Constant i)) 0xffffffff in
       Ok (set_cons i (i64 (Z.lor (u64 (Z.shiftl offset 32)) fd))).

(** asm/instruction.go:276-278 *)
Definition mapOffset (i : instr) : Z := u32 (Z.shiftr (u64 (Constant i)) 32).

(** asm/instruction.go:282-295 *)
Definition AssociateBTFID (i : instr) (id moduleFD : Z) : res err instr :=
  if negb (IsDWordLoad (OpCode i)) then Err ENotDirect
  else if moduleFD <? 0 then Err ENegativeFd
  else Ok (set_cons (set_src i PseudoBtfId) (i64 (Z.lor id (u64 (Z.shiftl moduleFD 32))))).

(** asm/instruction.go:235-244 *)
Definition ins_AssociateMap (m : Z) (i : instr) : res err instr :=
  if negb (IsLoadFromMap i) then Err ENotMapLoad
  else Ok (set_map (set_ref i EmptyString) (Some m)).

(** * Constructors (asm/load_store.go, asm/alu.go, asm/jump.go, asm/func.go) *)
Definition blank := mkIns 0 0 0 0 0 EmptyString EmptyString None.
Definition ins5 op d s o c := mkIns op d s o c EmptyString EmptyString None.
(** asm/load_store.go:115-142 *)
Definition Atomic_Mem (op dst src size offset : Z) := ins5 (AtomicOp_OpCode op size) dst src offset 0.
Definition LoadAcquire (dst src size offset : Z) := ins5 (AtomicOp_OpCode loadAcquire size) dst src offset 0.
Definition StoreRelease (dst src size offset : Z) := ins5 (AtomicOp_OpCode storeRelease size) dst src offset 0.
(** asm/load_store.go:185-216 *)
Definition LoadMemOp size := SetSize (SetMode LdXClass MemMode) size.
Definition LoadMemSXOp size := SetSize (SetMode LdXClass MemSXMode) size.
Definition LoadMem dst src offset size := ins5 (LoadMemOp size) dst src offset 0.
Definition LoadMemSX dst src offset size :=
  if size =? DWord then ins5 InvalidOpCode 0 0 0 0 else ins5 (LoadMemSXOp size) dst src offset 0.
(** asm/load_store.go:228-263 *)
Definition LoadImm dst value size := ins5 (LoadImmOp size) dst 0 0 value.
Definition LoadMapPtr dst fd :=
  if fd <? 0 then ins5 InvalidOpCode 0 0 0 0
  else ins5 (LoadImmOp DWord) dst PseudoMapFD 0 (u32 fd).
Definition LoadMapValue dst fd offset :=
  if fd <? 0 then ins5 InvalidOpCode 0 0 0 0
  else ins5 (LoadImmOp DWord) dst PseudoMapValue 0 (i64 (Z.lor (u64 (Z.shiftl offset 32)) (u32 fd))).
(** asm/load_store.go:266-292 *)
Definition LoadInd dst src offset size := ins5 (SetSize (SetMode LdClass IndMode) size) dst src 0 offset.
Definition LoadAbs offset size := ins5 (SetSize (SetMode LdClass AbsMode) size) R0 0 0 offset.
(** asm/load_store.go:295-337 *)
Definition StoreMem dst offset src size := ins5 (SetSize (SetMode StXClass MemMode) size) dst src offset 0.
Definition StoreImm dst offset value size :=
  if negb (i32 value =? value) then ins5 InvalidOpCode 0 0 0 0
  else ins5 (SetSize (SetMode StClass MemMode) size) dst 0 offset value.
Definition StoreXAdd dst src size := Atomic_Mem AddAtomic dst src size 0.
(** asm/alu.go:95-180 *)
Definition swap_imm size : option Z :=
  if size =? Half then Some 16 else if size =? Word then Some 32
  else if size =? DWord then Some 64 else None.
Definition HostTo endian dst size :=
  match swap_imm size with
  | None => ins5 InvalidOpCode 0 0 0 0
  | Some imm => ins5 (SetSource (SetALUOp ALUClass Swap) endian) dst 0 0 imm
  end.
Definition BSwap dst size :=
  match swap_imm size with
  | None => ins5 InvalidOpCode 0 0 0 0
  | Some imm => ins5 (SetALUOp ALU64Class Swap) dst 0 0 imm
  end.
Definition ALU_Op op source := SetSource (SetALUOp ALU64Class op) source.
Definition ALU_Reg op dst src := ins5 (ALU_Op op RegSource) dst src 0 0.
Definition ALU_Imm op dst value := ins5 (ALU_Op op ImmSource) dst 0 0 value.
Definition ALU_Op32 op source := SetSource (SetALUOp ALUClass op) source.
Definition ALU_Reg32 op dst src := ins5 (ALU_Op32 op RegSource) dst src 0 0.
Definition ALU_Imm32 op dst value := ins5 (ALU_Op32 op ImmSource) dst 0 0 value.
(** asm/jump.go:54-137 *)
Definition Return := ins5 (SetJumpOp JumpClass Exit) 0 0 0 0.
Definition Jump_Imm op dst value label := set_ref (ins5 (Jump_opCode op JumpClass ImmSource) dst 0 (-1) value) label.
Definition Jump_Imm32 op dst value label := set_ref (ins5 (Jump_opCode op Jump32Class ImmSource) dst 0 (-1) value) label.
Definition Jump_Reg op dst src label := set_ref (ins5 (Jump_opCode op JumpClass RegSource) dst src (-1) 0) label.
Definition Jump_Reg32 op dst src label := set_ref (ins5 (Jump_opCode op Jump32Class RegSource) dst src (-1) 0) label.
Definition LongJump label := set_ref (ins5 (Jump_opCode Ja Jump32Class ImmSource) 0 0 0 (-1)) label.
Definition Label op label :=
  if op =? Call then set_ref (ins5 (SetJumpOp JumpClass Call) 0 PseudoCall 0 (-1)) label
  else set_ref (ins5 (SetJumpOp JumpClass op) 0 0 (-1) 0) label.
(** asm/func.go:18-23 *)
Definition Builtin_Call fn := ins5 (SetJumpOp JumpClass Call) 0 0 0 fn.

(** * Instruction streams *)

(** asm/instruction.go:573-590. Every iteration consumes at least 8 bytes; the fuel is the number of
    bytes, [None] (out of fuel) is shown to be unreachable. Since insns is nil on error the
    accumulator is dropped. *)
Fixpoint appendInstructions (fuel : nat) (bo : byteorder) (p : plat) (acc : list instr) (r : list Z)
  : option (res err (list instr)) :=
  match fuel with
  | O => None
  | S fuel' =>
    match Unmarshal bo p r with
    | Err EOF => Some (Ok acc)
    | Err e => Some (Err e)
    | Ok (i, r') => appendInstructions fuel' bo p (acc ++ [i]) r'
    end
  end.
Definition AppendInstructions (bo : byteorder) (p : plat) (insns : list instr) (r : list Z) :=
  appendInstructions (S (length r)) bo p insns r.

(** asm/instruction.go:605-611 *)
Definition InsnsSize (l : list instr) : Z := fold_left (fun sum i => u64 (sum + Size i)) l 0.

(** asm/instruction.go:959-988: the sequence of (Index, Offset, Ins) produced by Iterate/Next. *)
Record iter := mkIter { it_rest : list instr; it_ins : option instr; it_index : Z; it_offset : Z }.
Definition Iterate (l : list instr) : iter := mkIter l None 0 0.
Definition Next (it : iter) : bool * iter :=
  match it_rest it with
  | [] => (false, it)
  | i :: rest =>
    match it_ins it with
    | None => (true, mkIter rest (Some i) (it_index it) (it_offset it))
    | Some p => (true, mkIter rest (Some i) (it_index it + 1)
                              (u64 (it_offset it + rawInstructions (OpCode p))))
    end
  end.
(** `for iter.Next() { visit (Index, Offset, Ins) }`; the visit may modify Ins in place but keeps its
    OpCode (true of the loops below), so the traversal is computed on the original stream. *)
Fixpoint visit (fuel : nat) (it : iter) : list (Z * Z * instr) :=
  match fuel with
  | O => []
  | S fuel' => match Next it with
               | (false, _) => []
               | (true, it') =>
                 match it_ins it' with
                 | Some i => (it_index it', it_offset it', i) :: visit fuel' it'
                 | None => []
                 end
               end
  end.
Definition iterate (l : list instr) : list (Z * Z * instr) := visit (S (length l)) (Iterate l).

(** Go maps from strings as association lists *)
Fixpoint lookup {A} (k : string) (m : list (string * A)) : option A :=
  match m with
  | [] => None
  | (k', v) :: m' => if String.eqb k k' then Some v else lookup k m'
  end.

(** asm/instruction.go:619-643; on error part of the stream may have been updated: [(stream, result)] *)
Fixpoint associateMap (symbol : string) (m : Z) (found : bool) (l : list instr)
  : list instr * option err :=
  match l with
  | [] => ([], if found then None else Some EUnreferenced)
  | i :: l' =>
    if negb (String.eqb (Reference i) symbol) then
      let '(l2, r) := associateMap symbol m found l' in (i :: l2, r)
    else match ins_AssociateMap m i with
         | Err e => (i :: l', Some e)
         | Ok i' => let '(l2, r) := associateMap symbol m true l' in (i' :: l2, r)
         end
  end.
Definition AssociateMap (symbol : string) (m : Z) (l : list instr) : list instr * option err :=
  if String.eqb symbol EmptyString then (l, Some EEmptySymbol) else associateMap symbol m false l.

(** asm/instruction.go:647-663 *)
Fixpoint symbolOffsets (i : Z) (offsets : list (string * Z)) (l : list instr)
  : res err (list (string * Z)) :=
  match l with
  | [] => Ok offsets
  | ins :: l' =>
    if String.eqb (Symbol ins) EmptyString then symbolOffsets (i + 1) offsets l'
    else match lookup (Symbol ins) offsets with
         | Some _ => Err EDuplicate
         | None => symbolOffsets (i + 1) ((Symbol ins, i) :: offsets) l'
         end
  end.
Definition SymbolOffsets (l : list instr) := symbolOffsets 0 [] l.

(** asm/instruction.go:697-709: map update of an association list *)
Fixpoint upd_append (k : string) (v : Z) (m : list (string * list Z)) : list (string * list Z) :=
  match m with
  | [] => [(k, [v])]
  | (k', vs) :: m' => if String.eqb k k' then (k', vs ++ [v]) :: m' else (k', vs) :: upd_append k v m'
  end.
Fixpoint referenceOffsets (i : Z) (offsets : list (string * list Z)) (l : list instr) :=
  match l with
  | [] => offsets
  | ins :: l' =>
    if String.eqb (Reference ins) EmptyString then referenceOffsets (i + 1) offsets l'
    else referenceOffsets (i + 1) (upd_append (Reference ins) i offsets) l'
  end.
Definition ReferenceOffsets (l : list instr) := referenceOffsets 0 [] l.

(** asm/instruction.go:667-693. The set [calls] is a duplicate free list (Go map iteration order is
    arbitrary, but the result is sorted); sort.Strings is an insertion sort by the bytewise order. *)
Definition isPendingCall (i : instr) : bool :=
  (Constant i =? -1) && negb (String.eqb (Reference i) EmptyString) && IsFunctionReference i.
Fixpoint insert_sorted (s : string) (l : list string) : list string :=
  match l with
  | [] => [s]
  | t :: l' => if String.leb s t then s :: t :: l' else t :: insert_sorted s l'
  end.
Definition sort_strings (l : list string) : list string := fold_right insert_sorted [] l.
Fixpoint call_set (calls : list string) (l : list instr) : list string :=
  match l with
  | [] => calls
  | i :: l' =>
    if negb (Constant i =? -1) then call_set calls l'
    else if String.eqb (Reference i) EmptyString then call_set calls l'
    else if negb (IsFunctionReference i) then call_set calls l'
    else call_set (if existsb (String.eqb (Reference i)) calls then calls else Reference i :: calls) l'
  end.
Definition FunctionReferences (l : list instr) : list string := sort_strings (call_set [] l).

(** asm/instruction.go:874-890 *)
Fixpoint index_symbols (offsets : list (string * Z)) (l : list (Z * Z * instr))
  : res err (list (string * Z)) :=
  match l with
  | [] => Ok offsets
  | (_, off, ins) :: l' =>
    if String.eqb (Symbol ins) EmptyString then index_symbols offsets l'
    else match lookup (Symbol ins) offsets with
         | Some _ => Err EDuplicate
         | None => index_symbols ((Symbol ins, off) :: offsets) l'
         end
  end.

(** asm/instruction.go:896-922: one instruction; [None] means unchanged *)
Definition fix_reference (offsets : list (string * Z)) (offset : Z) (i : instr) : res err instr :=
  if String.eqb (Reference i) EmptyString then Ok i
  else if (IsFunctionReference i && (Constant i =? -1))
          || ((OpCode i =? Jump_opCode Ja Jump32Class ImmSource) && (Constant i =? -1)) then
    match lookup (Reference i) offsets with
    | None => Err EUnsatisfied
    | Some sym => Ok (set_cons i (i64 (u64 (sym - offset - 1))))
    end
  else if IsJump (Class (OpCode i)) && (Offset i =? -1) then
    match lookup (Reference i) offsets with
    | None => Err EUnsatisfied
    | Some sym => Ok (set_off i (i16 (u64 (sym - offset - 1))))
    end
  else Ok i.

(** in-place loops that stop at the first error: (stream afterwards, error) *)
Fixpoint map_until {A B} (f : A -> res err B) (keep : A -> B) (l : list A) : list B * option err :=
  match l with
  | [] => ([], None)
  | a :: l' => match f a with
               | Err e => (keep a :: map keep l', Some e)
               | Ok b => let '(l2, r) := map_until f keep l' in (b :: l2, r)
               end
  end.

(** asm/instruction.go:874-926 *)
Definition encodeFunctionReferences (l : list instr) : list instr * option err :=
  match index_symbols [] (iterate l) with
  | Err e => (l, Some e)
  | Ok offsets =>
    map_until (fun x : Z * Z * instr => let '(_, off, i) := x in fix_reference offsets off i) snd (iterate l)
  end.

(** asm/instruction.go:930-953; FD() is assumed to return the same value both times it is called. *)
Definition encodeMapPointer (i : instr) : res err instr :=
  if negb (IsLoadFromMap i) then Ok i
  else match MapFD i with
       | None => Ok i
       | Some fd => if fd <? 0 then Err EClosedFd else Ok (encodeMapFD i fd)
       end.
Definition encodeMapPointers (l : list instr) : list instr * option err :=
  map_until encodeMapPointer (fun i => i) l.

(** asm/instruction.go:784-789, 853-862 *)
Fixpoint marshalAll (native : plat) (bo : byteorder) (l : list instr) : list Z * option err :=
  match l with
  | [] => ([], None)
  | i :: l' => match Marshal native bo i with
               | Err e => ([], Some e)
               | Ok (b, _) => let '(bs, r) := marshalAll native bo l' in (b ++ bs, r)
               end
  end.

(** asm/instruction.go:775-790: bytes written, the stream afterwards and the error *)
Definition MarshalInsns (native : plat) (bo : byteorder) (l : list instr)
  : list Z * list instr * option err :=
  match encodeFunctionReferences l with
  | (l1, Some e) => ([], l1, Some e)
  | (l1, None) =>
    match encodeMapPointers l1 with
    | (l2, Some e) => ([], l2, Some e)
    | (l2, None) => let '(bs, r) := marshalAll native bo l2 in (bs, l2, r)
    end
  end.

(** asm/instruction.go:852-863: what is written to the hash *)
Definition hash_input (native : plat) (bo : byteorder) (l : list instr) : list Z * option err :=
  marshalAll native bo (map (fun i => if IsLoadFromMap i then set_cons i 0 else i) l).

(** asm/instruction.go:800-846: tags, for arbitrary digest functions. [trunc_hex] is hex encoding of the
    first 8 bytes, a function of the digest. *)
Section Tag.
  Variable T : Type.
  Variable T_eqb : T -> T -> bool.
  Variables sha1 sha256 : list Z -> T.
  Definition tag (h : list Z -> T) native bo l : res err T :=
    match hash_input native bo l with (_, Some e) => Err e | (bs, None) => Ok (h bs) end.
  Definition Tag native bo l : res err T := tag sha1 native bo l.
  Definition HasTag (t : T) native bo l : res err bool :=
    match tag sha256 native bo l with
    | Err e => Err e
    | Ok t256 => if T_eqb t t256 then Ok true
                 else match tag sha1 native bo l with
                      | Err e => Err e
                      | Ok t1 => Ok (T_eqb t t1)
                      end
    end.
End Tag.
