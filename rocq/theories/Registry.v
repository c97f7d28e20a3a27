(** * Registry: the function tables of a device (prima_undine/src/device.rs L12-114) *)
From Verif Require Export Api.
From Coq Require Import String.
Set Implicit Arguments.
Unset Strict Implicit.

Section Tables.
Variable K : num.
Notation tensor := (tensor K).
Notation F := (F K).

(** std HashMap<String, V>::insert (trusted): the entry of an existing key is
    replaced, a new key is added. As an association list with at most one entry per key. *)
Fixpoint put {V} (name : string) (v : V) (l : list (string * V)) : list (string * V) :=
  match l with
  | [] => [(name, v)]
  | (n, w) :: l' => if String.eqb n name then (n, v) :: l' else (n, w) :: put name v l'
  end.

(** device.rs L12-23. The memory pool and the device implementation are in MemPool.v. *)
Record tables := mkTables {
  fw_impl : list (string * kfw K); fw_u32_impl : list (string * kfwu32 K);
  fw_f32_impl : list (string * kfwf32 K); bw_impl : list (string * kbw K) }.
(** Device::new L26-36 *)
Definition no_tables : tables := mkTables [] [] [] [].

(** register_fw_impl L38-40, register_fw_u32_impl L42-44, register_fw_f32_impl L46-48, register_bw_impl L50-52 *)
Inductive registration :=
| RegFw (name : string) (k : kfw K) | RegU32 (name : string) (k : kfwu32 K)
| RegF32 (name : string) (k : kfwf32 K) | RegBw (name : string) (k : kbw K).
Definition register (d : tables) (r : registration) : tables :=
  match r with
  | RegFw n k => mkTables (put n k (fw_impl d)) (fw_u32_impl d) (fw_f32_impl d) (bw_impl d)
  | RegU32 n k => mkTables (fw_impl d) (put n k (fw_u32_impl d)) (fw_f32_impl d) (bw_impl d)
  | RegF32 n k => mkTables (fw_impl d) (fw_u32_impl d) (put n k (fw_f32_impl d)) (bw_impl d)
  | RegBw n k => mkTables (fw_impl d) (fw_u32_impl d) (fw_f32_impl d) (put n k (bw_impl d))
  end.
Definition registered (d : tables) (h : list registration) : tables := fold_left register h d.

(** call_fw_impl L54-67, call_fw_u32_impl L69-82, call_fw_f32_impl L84-97, call_bw_impl L99-114 *)
Definition dev_call_fw (d : tables) (name : string) xs u f y : res tensor := match assoc (fw_impl d) name with Some k => k xs u f y | None => Panic end.
Definition dev_call_u32 (d : tables) (name : string) xs u y : res (list N) := match assoc (fw_u32_impl d) name with Some k => k xs u y | None => Panic end.
Definition dev_call_f32 (d : tables) (name : string) xs y : res (list F) := match assoc (fw_f32_impl d) name with Some k => k xs y | None => Panic end.
Definition dev_call_bw (d : tables) als (name : string) xs ys gys u f gx : res tensor := match assoc (bw_impl d) name with Some k => k als xs ys gys u f gx | None => Panic end.

(** devices/naive.rs L79-308: the registrations of the Naive device, table by table
    (their order within a table is that of the source; that of different tables does not matter) *)
Definition naive_registrations (m : build) (srt : (nat -> nat -> option comparison) -> list nat -> res (list nat)) : list registration :=
  map (fun e => RegFw (fst e) (snd e)) (fw_registry K m) ++ map (fun e => RegU32 (fst e) (snd e)) (u32_registry K m srt) ++
  map (fun e => RegF32 (fst e) (snd e)) (f32_registry K m) ++ map (fun e => RegBw (fst e) (snd e)) (bw_registry K m).
End Tables.
