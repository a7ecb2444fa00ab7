(** Model of perf/ring.go and perf/reader.go (perf event array reader).
    The data pages of a perf ring are mapped once: [mem i] is the byte at offset [i] in [0,size). *)
From Coq Require Import ZArith List Lia Bool.
From Verif.Base Require Import GoInt.
Import ListNotations.
Open Scope Z_scope.

(** Bytes [start, start+n) of the data pages; callers never exceed the size (checked by [None] = panic). *)
Definition mem_slice (mem : Z -> Z) (start n : Z) : list Z :=
  map (fun i => mem (start + Z.of_nat i)) (seq 0 (Z.to_nat n)).

(** ** forwardReader, perf/ring.go:146-201 *)
Record fwd := mkFwd {
  f_size : Z; f_mem : Z -> Z;
  f_mhead : Z; f_mtail : Z;     (* meta.Data_head, meta.Data_tail: shared with the kernel *)
  f_head : Z; f_tail : Z
}.

(** perf/ring.go:153-162 newForwardReader *)
Definition newForwardReader (sz : Z) (mem : Z -> Z) (mhead mtail : Z) : fwd := mkFwd sz mem mhead mtail mhead mtail.
(** perf/ring.go:164-166 loadHead *)
Definition fwd_loadHead (r : fwd) : fwd := mkFwd (f_size r) (f_mem r) (f_mhead r) (f_mtail r) (f_mhead r) (f_tail r).
(** perf/ring.go:172-174 remaining *)
Definition fwd_remaining (r : fwd) : Z := i64 (Z.land (u64 (f_head r - f_tail r)) (f_size r - 1)).
(** perf/ring.go:176-180 writeTail *)
Definition fwd_writeTail (r : fwd) : fwd := mkFwd (f_size r) (f_mem r) (f_mhead r) (f_tail r) (f_head r) (f_tail r).

(** perf/ring.go:182-204 Read into a buffer of length [n]: bytes copied, whether io.EOF is returned, reader. *)
Definition fwd_Read (r : fwd) (n : Z) : option (list Z * bool * fwd) :=
  let start := Z.land (f_tail r) (f_size r - 1) in
  let n1 := if n >? f_size r - start then f_size r - start else n in
  let remainder := i64 (u64 (f_head r - f_tail r)) in
  let n2 := if n1 >? remainder then remainder else n1 in
  if n2 <? 0 then None
  else
    let tail' := u64 (f_tail r + n2) in
    Some (mem_slice (f_mem r) start n2, tail' =? f_head r,
          mkFwd (f_size r) (f_mem r) (f_mhead r) (f_mtail r) (f_head r) tail').

(** ** reverseReader, perf/ring.go:206-297 *)
Record rev := mkRev {
  v_size : Z; v_mem : Z -> Z;
  v_mhead : Z;                  (* meta.Data_head *)
  v_head : Z; v_read : Z; v_tail : Z
}.

(** perf/ring.go:227-259 loadHead *)
Definition rev_loadHead (r : rev) : rev :=
  let tail := v_head r in
  let head := v_mhead r in
  let tail' := if u64 (tail - head) >? v_size r then u64 (head + v_size r) else tail in
  mkRev (v_size r) (v_mem r) (v_mhead r) head head tail'.

(** perf/ring.go:217-225 newReverseReader: all positions start at 0, then loadHead. *)
Definition newReverseReader (sz : Z) (mem : Z -> Z) (mhead : Z) : rev :=
  rev_loadHead (mkRev sz mem mhead 0 0 0).

(** perf/ring.go:276-297 Read *)
Definition rev_Read (r : rev) (n : Z) : option (list Z * bool * rev) :=
  let start := Z.land (v_read r) (v_size r - 1) in
  let n1 := if n >? v_size r - start then v_size r - start else n in
  let remainder := i64 (u64 (v_tail r - v_read r)) in
  let n2 := if n1 >? remainder then remainder else n1 in
  if n2 <? 0 then None
  else
    let read' := u64 (v_read r + n2) in
    Some (mem_slice (v_mem r) start n2, read' =? v_tail r,
          mkRev (v_size r) (v_mem r) (v_mhead r) (v_head r) read' (v_tail r)).

(** ** ringReader interface (perf/ring.go:138-144) *)
Inductive rdr := Fwd (f : fwd) | Rev (v : rev).
Definition Read (r : rdr) (n : Z) : option (list Z * bool * rdr) :=
  match r with
  | Fwd f => match fwd_Read f n with Some (b, e, f') => Some (b, e, Fwd f') | None => None end
  | Rev v => match rev_Read v n with Some (b, e, v') => Some (b, e, Rev v') | None => None end
  end.
Definition loadHead (r : rdr) : rdr :=
  match r with Fwd f => Fwd (fwd_loadHead f) | Rev v => Rev (rev_loadHead v) end.
Definition remaining (r : rdr) : Z := match r with Fwd f => fwd_remaining f | Rev _ => -1 end.
Definition writeTail (r : rdr) : rdr := match r with Fwd f => Fwd (fwd_writeTail f) | Rev v => Rev v end.

(** ** io.ReadFull of the Go standard library: io.ReadAtLeast(r, buf, len(buf)). *)
Inductive rf_out :=
| RF_Ok (b : list Z) (r : rdr) | RF_EOF (r : rdr) | RF_UnexpectedEOF (r : rdr) | RF_Panic | RF_Fuel.

Fixpoint readFull_loop (fuel : nat) (r : rdr) (need : Z) (acc : list Z) : rf_out :=
  if need <=? 0 then RF_Ok acc r
  else match fuel with
  | O => RF_Fuel
  | S f =>
      match Read r need with
      | None => RF_Panic
      | Some (b, eof, r') =>
          let need' := need - Z.of_nat (length b) in
          if need' <=? 0 then RF_Ok (acc ++ b) r'            (* n >= min: err = nil *)
          else if eof then match acc ++ b with
                           | [] => RF_EOF r'
                           | _ => RF_UnexpectedEOF r'
                           end
          else readFull_loop f r' need' (acc ++ b)
      end
  end.
(** A ring read is split at most once (at the wrap); 3 iterations are always enough (proved). *)
Definition readFull (r : rdr) (n : Z) : rf_out := readFull_loop 3 r n [].

(** ** Records, perf/reader.go:34-155 *)
Definition PERF_RECORD_LOST : Z := 2.
Definition PERF_RECORD_SAMPLE : Z := 9.
Definition perfEventHeaderSize : Z := 8.
Definition perfEventSampleSize : Z := 4.

Record record := mkRecord { CPU : Z; RawSample : list Z; LostSamples : Z; Remaining : Z }.

(** Errors; the flag of [EWrapped] ones says whether errors.Is(err, io.EOF or io.ErrUnexpectedEOF) holds
    (fmt.Errorf with %w keeps the cause, %v does not). *)
Inductive perr := EEOR | EHeader | ELost | ESampleSize | ESample | EUnknown (t : Z) | EPanic | EFuel.
Definition is_eof (e : perr) : bool := match e with ESampleSize | ESample => true | _ => false end.

(** perf/reader.go:90-105 readLostRecords: binary.Read of {ID, Lost uint64}. *)
Definition readLostRecords (bo : byteorder) (r : rdr) : res perr Z * rdr :=
  match readFull r 16 with
  | RF_Ok b r' => (Ok (get bo (firstn 8 (skipn 8 b))), r')
  | RF_EOF r' | RF_UnexpectedEOF r' => (Err ELost, r')
  | RF_Panic => (Err EPanic, r) | RF_Fuel => (Err EFuel, r)
  end.

(** perf/reader.go:114-135 readRawSample. Reuse of the caller's buffer is not observable on success
    because ReadFull overwrites all of it; on error nil is returned. *)
Definition readRawSample (bo : byteorder) (r : rdr) : res perr (list Z) * rdr :=
  match readFull r perfEventSampleSize with
  | RF_Ok b r' =>
      match readFull r' (get bo b) with
      | RF_Ok d r'' => (Ok d, r'')
      | RF_EOF r'' | RF_UnexpectedEOF r'' => (Err ESample, r'')
      | RF_Panic => (Err EPanic, r') | RF_Fuel => (Err EFuel, r')
      end
  | RF_EOF r' | RF_UnexpectedEOF r' => (Err ESampleSize, r')
  | RF_Panic => (Err EPanic, r) | RF_Fuel => (Err EFuel, r)
  end.

(** perf/reader.go:59-88 readRecord; result: RawSample and LostSamples of the record, or an error. *)
Definition readRecord (bo : byteorder) (r : rdr) : res perr (list Z * Z) * rdr :=
  match readFull r perfEventHeaderSize with
  | RF_EOF r' => (Err EEOR, r')
  | RF_UnexpectedEOF r' => (Err EHeader, r')
  | RF_Panic => (Err EPanic, r) | RF_Fuel => (Err EFuel, r)
  | RF_Ok buf r' =>
      let type := get bo (firstn 4 buf) in
      if type =? PERF_RECORD_LOST then
        match readLostRecords bo r' with
        | (Ok n, r'') => (Ok ([], n), r'')
        | (Err e, r'') => (Err e, r'')
        end
      else if type =? PERF_RECORD_SAMPLE then
        match readRawSample bo r' with
        | (Ok d, r'') => (Ok (d, 0), r'')
        | (Err e, r'') => (Err e, r'')
        end
      else (Err (EUnknown type), r')
  end.

(** perf/reader.go:468-478 readRecordFromRing (writeTail is deferred: it runs on every path). *)
Definition readRecordFromRing (bo : byteorder) (cpu : Z) (overwritable : bool) (r : rdr)
  : res perr record * rdr :=
  let '(res, r') := readRecord bo r in
  (match res with
   | Err e => if overwritable && is_eof e then Err EEOR else Err e
   | Ok (d, lost) => Ok (mkRecord cpu d lost (remaining r'))
   end, writeTail r').

(** ReadInto's inner loop on one ring whose head was loaded: successive calls until errEOR (or an error). *)
Fixpoint readAll (fuel : nat) (bo : byteorder) (cpu : Z) (ow : bool) (r : rdr)
  : list record * option perr * rdr :=
  match fuel with
  | O => ([], None, r)
  | S f =>
      match readRecordFromRing bo cpu ow r with
      | (Ok rec, r') => let '(l, e, r'') := readAll f bo cpu ow r' in (rec :: l, e, r'')
      | (Err e, r') => ([], Some e, r')
      end
  end.

(** ** perf/ring.go:84-97 perfBufferSize. math.Pow(2, math.Ceil(math.Log2(x))) is modelled by the exact
    smallest power of two >= x ([2 ^ Z.log2_up x]); Go's float64 Log2 is exact on powers of two and accurate
    enough to separate 2^k from 2^k+1 for every page count below 2^47 (trusted). *)
Definition perfBufferSize (pageSize perCPUBuffer : Z) : Z :=
  let nPages := (perCPUBuffer + pageSize - 1) / pageSize in
  let nPages := 2 ^ Z.log2_up nPages in
  let nPages := nPages + 1 in
  nPages * pageSize.

(** ** NewReaderWithOptions / Resume / Pause: which event sits in which slot of the perf event array.
    An event is identified by the CPU it was opened for. *)
(** perf/reader.go:208-230: one event per CPU whose perf_event_open does not fail with ENODEV (offline). *)
Definition openEvents (nCPU : nat) (online : nat -> bool) : list nat :=
  filter online (seq 0 nCPU).
(** Slots of the array map: slot -> event. *)
Definition array := nat -> option nat.
(** perf/reader.go:437-453 Resume: array.Put(uint32(i), fd) for i, fd in eventFds. *)
Fixpoint put_all (i : nat) (evs : list nat) (a : array) : array :=
  match evs with
  | [] => a
  | e :: evs' => put_all (S i) evs' (fun k => if Nat.eqb k i then Some e else a k)
  end.
Definition resume (evs : list nat) (a : array) : array := put_all 0 evs a.
(** perf/reader.go:414-432 Pause: array.Delete(uint32(i)) for i in range eventFds. *)
Definition pause (evs : list nat) (a : array) : array :=
  fun k => if (k <? length evs)%nat then None else a k.
