(** Model of cilium/ebpf's BPF ring buffer reader: ringbuf/ring.go, ringbuf/reader.go.

    The ring's data pages are mapped twice back to back (ringbuf/ring_other.go:  newRingBufEventRing mmaps
    2 * size bytes, the kernel maps every data page twice). The model keeps ONE copy of the physical bytes,
    [mem : Z -> Z] indexed by offset in [0,size), and an access to index [i] of the Go slice [rr.data]
    (0 <= i < 2*size) reads [mem (i mod size)].  uintptr is 64 bit; every addition/subtraction wraps. *)
From Coq Require Import ZArith List Lia Bool.
From Verif.Base Require Import GoInt.
Import ListNotations.
Open Scope Z_scope.

(** internal/sys constants: BPF_RINGBUF_BUSY_BIT, BPF_RINGBUF_DISCARD_BIT, BPF_RINGBUF_HDR_SZ
    (internal/sys/types.go). *)
Definition BUSY_BIT : Z := 2147483648.
Definition DISCARD_BIT : Z := 1073741824.
Definition HDR_SZ : Z := 8.

(** internal/math.go:4-6 [Align], at type int. [/] is Go's truncated division ([Z.quot]); the sum does not
    overflow for the 30 bit lengths it is applied to here. *)
Definition align_int (n a : Z) : Z := Z.quot (n + a - 1) a * a.

(** ringbuf/reader.go:46-62: ringbufHeader.isBusy, isDiscard, dataLen, dataLenAligned. *)
Definition isBusy (len : Z) : bool := negb (Z.land len BUSY_BIT =? 0).
Definition isDiscard (len : Z) : bool := negb (Z.land len DISCARD_BIT =? 0).
Definition dataLen (len : Z) : Z := Z.ldiff len (Z.lor BUSY_BIT DISCARD_BIT).
Definition dataLenAligned (len : Z) : Z := align_int (dataLen len) 8.

(** Errors returned by readSample: errEOR, or io.ErrUnexpectedEOF wrapped at the header or at the data. *)
Inductive rerr := EOR | ShortHeader | ShortData.

(** ringbuf/ring.go:13-28: ringReader. [rmem] is the shared memory as seen at the moment of the call. *)
Record ring := mkRing {
  rsize : Z;          (* cap(data)/2 *)
  rmem  : Z -> Z;     (* physical bytes, see above *)
  rprod : Z;          (* *prod_pos *)
  rcons : Z;          (* *cons_pos, shared with the kernel *)
  rlocal : Z          (* localCons *)
}.

(** ringbuf/ring.go:36: mask. *)
Definition rmask (sz : Z) : Z := sz - 1.

(** Reading index range [start, start+n) of the double mapped slice. *)
Definition slice_bytes (sz : Z) (mem : Z -> Z) (start n : Z) : list Z :=
  map (fun i => mem ((start + Z.of_nat i) mod sz)) (seq 0 (Z.to_nat n)).

(** ringbuf/ring.go:31-40 newRingReader: the local position starts at the shared consumer position. *)
Definition newRingReader (sz : Z) (mem : Z -> Z) (prod cons : Z) : ring :=
  mkRing sz mem prod cons cons.

(** ringbuf/ring.go:45-47, 51-53: size, available (int(uintptr) reinterprets the sign bit). *)
Definition r_size (r : ring) : Z := rsize r.
Definition r_available (r : ring) : Z := i64 (u64 (rprod r - rcons r)).

(** ringbuf/ring.go:57-59: commit. *)
Definition r_commit (r : ring) : ring :=
  mkRing (rsize r) (rmem r) (rprod r) (rlocal r) (rlocal r).

(** ringbuf/ring.go:76-84, first block of readSample: compare the loaded producer position with localCons. *)
Definition rs_check (prod local : Z) : option rerr :=
  let remaining := u64 (prod - local) in
  if remaining =? 0 then Some EOR
  else if remaining <? HDR_SZ then Some ShortHeader
  else None.

(** ringbuf/ring.go:90,94: index of the header, and the (atomic, native endian) 32 bit load. *)
Definition hdr_index (sz local : Z) : Z := Z.land local (rmask sz).
Definition load_len (bo : byteorder) (sz : Z) (mem : Z -> Z) (local : Z) : Z :=
  get bo (slice_bytes sz mem (hdr_index sz local) 4).

(** Result of the rest of readSample once the header is not busy (ringbuf/ring.go:106-130).
    [data = None] is Go's nil slice; [Some (start,n)] is data[start:start+n]. *)
Inductive rs_out :=
| RSErr (e : rerr)
| RSPanic                                  (* slice bounds out of range *)
| RSOk (data : option (Z * Z)) (remain local' : Z).

Definition rs_finish (sz prod local len : Z) : rs_out :=
  let cons := u64 (local + HDR_SZ) in
  let aligned := u64 (dataLenAligned len) in
  if u64 (prod - cons) <? aligned then RSErr ShortData
  else
    let start := Z.land cons (rmask sz) in
    let cons' := u64 (cons + aligned) in
    let remain := i64 (u64 (prod - cons')) in
    let stop := u64 (start + u64 (dataLen len)) in
    if (stop <? start) || (2 * sz <? stop) then RSPanic
    else if isDiscard len then RSOk None remain cons'
    else RSOk (Some (start, dataLen len)) remain cons'.

(** ringbuf/ring.go:73-130: readSample on a fixed memory. [RBusy]: the retry loop spins (with this memory
    it would spin forever; the interleaved model below lets the memory change between iterations). *)
Inductive read_out :=
| RdBusy
| RdErr (e : rerr)
| RdPanic
| RdOk (data : option (Z * Z)) (remain : Z).

Definition readSample (bo : byteorder) (r : ring) : read_out * ring :=
  match rs_check (rprod r) (rlocal r) with
  | Some e => (RdErr e, r)
  | None =>
      let len := load_len bo (rsize r) (rmem r) (rlocal r) in
      if isBusy len then (RdBusy, r)
      else match rs_finish (rsize r) (rprod r) (rlocal r) len with
           | RSErr e => (RdErr e, r)
           | RSPanic => (RdPanic, r)
           | RSOk d remain local' =>
               (RdOk d remain, mkRing (rsize r) (rmem r) (rprod r) (rcons r) local')
           end
  end.

(** ringbuf/reader.go:65-70: Record. *)
Record record := mkRecord { RawSample : list Z; Remaining : Z }.

(** Go's copy(dst, src). *)
Definition go_copy (dst src : list Z) : list Z :=
  firstn (Nat.min (length dst) (length src)) src ++ skipn (Nat.min (length dst) (length src)) dst.

Inductive ri_out := RiFuel | RiBusy | RiErr (e : rerr) | RiPanic | RiOk (rec : record).

(** ringbuf/reader.go:125-160 ReadInto, on a memory that does not change meanwhile; the mutex and lease are
    modelled in Lease.v, the waiting part of Lease.ReadSample in Drain.v (here EOR is returned).
    [old] is the full capacity content of rec.RawSample (so its length is the cap). *)
Fixpoint readInto (fuel : nat) (bo : byteorder) (old : list Z) (r : ring) : ri_out * ring :=
  match fuel with
  | O => (RiFuel, r)
  | S f =>
      match readSample bo r with
      | (RdErr e, r') => (RiErr e, r')
      | (RdBusy, r') => (RiBusy, r')
      | (RdPanic, r') => (RiPanic, r')
      | (RdOk None _, r') => readInto f bo old (r_commit r')
      | (RdOk (Some (start, n)) remain, r') =>
          let data := slice_bytes (rsize r') (rmem r') start n in
          let buf := if (length old <? length data)%nat
                     then repeat 0 (length data)
                     else firstn (length data) old in
          (RiOk (mkRecord (go_copy buf data) remain), r_commit r')
      end
  end.

(** A user calling Read until it fails: returns the records, the failure and the final ring. The buffer of
    each call is chosen by the caller ([olds]; Reader.Read passes the empty one). *)
Fixpoint drain (fuel : nat) (bo : byteorder) (olds : nat -> list Z) (r : ring)
  : list record * ri_out * ring :=
  match fuel with
  | O => ([], RiFuel, r)
  | S f =>
      match readInto fuel bo (olds fuel) r with
      | (RiOk rec, r') =>
          let '(recs, e, r'') := drain f bo olds r' in (rec :: recs, e, r'')
      | (e, r') => ([], e, r')
      end
  end.
