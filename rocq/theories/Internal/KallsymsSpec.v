(** /proc/kallsyms as the kernel prints it, and what a lookup means (properties C72, C73). *)
From Verif.Base Require Import GoInt.
From Verif.Internal Require Import Kallsyms.

(** one kernel symbol; [s_mod]: the module which provides it *)
Record symbol := mkSymbol { s_addr : Z; s_type : Z; s_name : str; s_mod : option str }.

(** kernel/kallsyms.c, s_show: "%px %c %s\n" or "%px %c %s\t[%s]\n" on 64 bit *)
Definition digit (d : Z) : Z := if d <? 10 then 48 + d else 87 + d.
Fixpoint hex (n : nat) (x : Z) : str := match n with O => [] | S n' => hex n' (x / 16) ++ [digit (x mod 16)] end.
Definition show (s : symbol) : str :=
  hex 16 (s_addr s) ++ [32; s_type s; 32] ++ s_name s ++ match s_mod s with None => [] | Some m => [9; 91] ++ m ++ [93] end.
Definition file (ks : list symbol) : str := concat (map (fun s => show s ++ [10]) ks).

(** printable, not a space *)
Definition graphic (b : Z) : Prop := 33 <= b <= 126.
Record wf (s : symbol) : Prop := {
  wf_addr : in_u 64 (s_addr s);
  wf_type : graphic (s_type s);
  wf_name : s_name s <> [] /\ Forall graphic (s_name s);
  wf_mod : match s_mod s with None => True | Some m => m <> [] /\ Forall graphic m end;
  wf_len : Z.of_nat (length (s_name s)) + match s_mod s with None => 0 | Some m => Z.of_nat (length m) end <= 60000 }.

(** the addresses of the symbols with a name, in order *)
Definition addresses (ks : list symbol) (n : str) : list Z := map s_addr (filter (fun s => str_eqb (s_name s) n) ks).

(** what a lookup of one name may answer: 0 if there's no such symbol, else its only address *)
Definition resolves (ks : list symbol) (n : str) (a : Z) : Prop :=
  (addresses ks n = [] /\ a = 0) \/ (addresses ks n = [a] /\ a <> 0).
Definition ambiguous (ks : list symbol) (n : str) : Prop := (2 <= length (addresses ks n))%nat.
(** the kernel hides addresses by printing zeroes *)
Definition restricted (ks : list symbol) (n : str) : Prop := In 0 (addresses ks n).

Lemma resolves_fun : forall ks n a b, resolves ks n a -> resolves ks n b -> a = b.
Proof. intros ks n a b [[H ->]|[H Ha]] [[H1 ->]|[H1 Hb]]; congruence. Qed.
Lemma resolves_not : forall ks n a, resolves ks n a -> ~ ambiguous ks n /\ ~ restricted ks n.
Proof. intros ks n a H. unfold ambiguous, restricted. destruct H as [[-> _]|[-> H]]; cbn; split; (lia || intuition). Qed.
(** every name is exactly one of: resolvable, or ambiguous or restricted *)
Lemma resolves_total : forall ks n, (exists a, resolves ks n a) \/ ambiguous ks n \/ restricted ks n.
Proof.
  intros ks n. unfold resolves, ambiguous, restricted. destruct (addresses ks n) as [|a [|b l]]; cbn.
  - left. exists 0. auto.
  - destruct (Z.eq_dec a 0) as [->|H]; auto. left. exists a. auto.
  - right. left. lia.
Qed.

(** ** Calls *)
(** a call of AssignAddresses: the kernel's symbols at that time ([None]: /proc/kallsyms can't be opened) and the caller's map *)
Record call := mkCall { c_kernel : option (list symbol); c_symbols : smap }.
Definition proc (k : option (list symbol)) : procfile := option_map (fun ks => (file ks, false)) k.
(** the maps and errors of a sequence of calls, beginning with the given cache *)
Fixpoint run (cache : smap) (cs : list call) : list (smap * option kerr) :=
  match cs with
  | [] => []
  | c :: cs' => match AssignAddresses cache (proc (c_kernel c)) (c_symbols c) with (cache, m, e) => (m, e) :: run cache cs' end
  end.
Definition requested (c : call) (n : str) : Prop := In n (map fst (c_symbols c)).
Definition call_ok (c : call) : Prop := NoDup (map fst (c_symbols c)) /\ match c_kernel c with Some ks => Forall wf ks | None => True end.

(** ** References *)
(** the constant of an instruction which refers to a symbol: the 64 bits of the address; only weak symbols may be absent *)
Definition reference_ok (ks : list symbol) (r : kref) (c : option Z) : Prop :=
  exists a z, resolves ks (r_name r) a /\ (a <> 0 \/ r_weak r = true) /\ c = Some z /\ u64 z = a /\ in_s 64 z.
(** the cache agrees with the kernel *)
Definition agrees (ks : list symbol) (cache : smap) : Prop := forall n a, sget cache n = Some a -> resolves ks n a.
