(** * Kernels: model of prima_undine/src/devices/naive/*.rs

    One definition per kernel, with the loops, strides and order of operations
    of the code. Pointers are offsets into the buffer behind the tensor's
    handle. usize arithmetic is on [nat]: the products formed in the kernels are
    bounded by the product of two u32 values, so they do not wrap on a 64 bit
    target. u32 arithmetic ([Shape::size], [lower_volume]) goes through [Shape]
    and keeps the build mode [m]. *)
From Verif Require Export Spec.
Set Implicit Arguments.

Section Kernels.
Variable K : num.
Notation F := (F K).

(** tensor.rs L10-19. [t_dev]: identity of the device; [t_buf]: contents of the
    buffer behind the handle ([None] = null handle); [t_host]: host_values. The
    [reference] field only matters for ownership and is modelled in
    Lifecycle.v. *)
Record tensor := mkTensor {
  t_dev : option nat;
  t_shape : shape;
  t_buf : option (list F);
  t_host : option (list F) }.

Definition with_buf (t : tensor) (l : list F) : tensor := mkTensor (t_dev t) (t_shape t) (Some l) (t_host t).

(** const_ptr!/mut_ptr! (naive/common.rs L1-17): null handle panics in unwrap() *)
Definition ptr (t : tensor) : res (list F) := unwrap (t_buf t).

Variable m : build.
Notation nat32 x := (N.to_nat x).

(** u32data / f32data / xs indexing: [xs[i]] panics when out of range *)

(** *** naive/common.rs L19-43: define_naive_fw_x_impl *)
Definition k_fw_x (op : F -> F) (x y : tensor) : res tensor :=
  sz <- size m (t_shape y) ;;
  px <- ptr x ;; py <- ptr y ;;
  py' <- forN (nat32 sz) (fun i py => v <- rd px i ;; wr py i (op v)) py ;;
  Ok (with_buf y py').

(** *** naive/common.rs L45-74: define_naive_bw_x_impl *)
Definition k_bw_x (op : F -> F -> F -> F) (x y gy gx : tensor) : res tensor :=
  sz <- size m (t_shape gy) ;;
  px <- ptr x ;; py <- ptr y ;; pgy <- ptr gy ;; pgx <- ptr gx ;;
  pgx' <- forN (nat32 sz) (fun i pgx =>
     vx <- rd px i ;; vy <- rd py i ;; vg <- rd pgy i ;;
     upd pgx i (fun v => Ok (nadd K v (op vx vy vg)))) pgx ;;
  Ok (with_buf gx pgx').

(** batch shift: [if s.batch() == 1 { 0 } else { volume }] *)
Definition shift (s : shape) (volume : nat) : nat := if (batch s =? 1)%N then 0 else volume.

(** *** naive/common.rs L76-109: define_naive_fw_ab_impl *)
Definition k_fw_ab (op : F -> F -> F) (a b y : tensor) : res tensor :=
  let volume := nat32 (volume (t_shape y)) in
  let a_shift := shift (t_shape a) volume in
  let b_shift := shift (t_shape b) volume in
  pa <- ptr a ;; pb <- ptr b ;; py <- ptr y ;;
  st <- forN (nat32 (batch (t_shape y))) (fun _ '(oa, ob, oy, py) =>
     py' <- forN volume (fun i py => va <- rd pa (oa + i) ;; vb <- rd pb (ob + i) ;; wr py (oy + i) (op va vb)) py ;;
     Ok (oa + a_shift, ob + b_shift, oy + volume, py')) (0, 0, 0, py) ;;
  let '(_, _, _, py') := st in
  Ok (with_buf y py').

(** *** naive/common.rs L111-136: define_naive_fw_const_impl (f32data = [k]) *)
Definition k_fw_const (op : F -> F -> F) (x : tensor) (k : F) (y : tensor) : res tensor :=
  sz <- size m (t_shape y) ;;
  px <- ptr x ;; py <- ptr y ;;
  py' <- forN (nat32 sz) (fun i py => v <- rd px i ;; wr py i (op v k)) py ;;
  Ok (with_buf y py').

(** *** naive/common.rs L138-168: define_naive_bw_const_impl *)
Definition k_bw_const (op : F -> F -> F -> F -> F) (x y gy : tensor) (k : F) (gx : tensor) : res tensor :=
  sz <- size m (t_shape gy) ;;
  px <- ptr x ;; py <- ptr y ;; pgy <- ptr gy ;; pgx <- ptr gx ;;
  pgx' <- forN (nat32 sz) (fun i pgx =>
     vx <- rd px i ;; vy <- rd py i ;; vg <- rd pgy i ;;
     upd pgx i (fun v => Ok (nadd K v (op vx vy vg k)))) pgx ;;
  Ok (with_buf gx pgx').

(** *** naive/common.rs L170-203: define_naive_fw_scalar_impl. The scalar is
    read inside of the inner loop, as in the code. *)
Definition k_fw_scalar (op : F -> F -> F) (x k y : tensor) : res tensor :=
  let volume := nat32 (volume (t_shape y)) in
  let x_shift := shift (t_shape x) volume in
  let k_shift := shift (t_shape k) 1 in
  px <- ptr x ;; pk <- ptr k ;; py <- ptr y ;;
  st <- forN (nat32 (batch (t_shape y))) (fun _ '(ox, ok, oy, py) =>
     py' <- forN volume (fun i py => vx <- rd px (ox + i) ;; vk <- rd pk ok ;; wr py (oy + i) (op vx vk)) py ;;
     Ok (ox + x_shift, ok + k_shift, oy + volume, py')) (0, 0, 0, py) ;;
  let '(_, _, _, py') := st in
  Ok (with_buf y py').

(** *** add.rs L8-61, sub.rs L8-61: AddBwA, AddBwB, SubBwA ([+=]) and SubBwB
    ([-=]): [acc] is the compound assignment. *)
Definition k_bw_lin (acc : F -> F -> F) (gy ga : tensor) : res tensor :=
  let volume := nat32 (volume (t_shape gy)) in
  let a_shift := shift (t_shape ga) volume in
  pgy <- ptr gy ;; pga <- ptr ga ;;
  st <- forN (nat32 (batch (t_shape gy))) (fun _ '(og, oa, pga) =>
     pga' <- forN volume (fun i pga => vg <- rd pgy (og + i) ;; upd pga (oa + i) (fun v => Ok (acc v vg))) pga ;;
     Ok (og + volume, oa + a_shift, pga')) (0, 0, pga) ;;
  let '(_, _, pga') := st in
  Ok (with_buf ga pga').

(** *** mul.rs L8-70 (MulBwA: other operand is b, MulBwB: a), div.rs L8-37 (DivBwA):
    [*pga += op( *pother, *pgy)] *)
Definition k_bw_other (op : F -> F -> F) (o gy ga : tensor) : res tensor :=
  let volume := nat32 (volume (t_shape gy)) in
  let a_shift := shift (t_shape ga) volume in
  let o_shift := shift (t_shape o) volume in
  po <- ptr o ;; pgy <- ptr gy ;; pga <- ptr ga ;;
  st <- forN (nat32 (batch (t_shape gy))) (fun _ '(oo, og, oa, pga) =>
     pga' <- forN volume (fun i pga =>
        vo <- rd po (oo + i) ;; vg <- rd pgy (og + i) ;;
        upd pga (oa + i) (fun v => Ok (nadd K v (op vo vg)))) pga ;;
     Ok (oo + o_shift, og + volume, oa + a_shift, pga')) (0, 0, 0, pga) ;;
  let '(_, _, _, pga') := st in
  Ok (with_buf ga pga').

(** *** div.rs L41-72 (DivBwB). b and gb advance with the same shift (that of gb). *)
Definition k_div_bw_b (b y gy gb : tensor) : res tensor :=
  let volume := nat32 (volume (t_shape gy)) in
  let b_shift := shift (t_shape gb) volume in
  pb <- ptr b ;; py <- ptr y ;; pgy <- ptr gy ;; pgb <- ptr gb ;;
  st <- forN (nat32 (batch (t_shape gy))) (fun _ '(ob, oy, og, ogb, pgb) =>
     pgb' <- forN volume (fun i pgb =>
        vg <- rd pgy (og + i) ;; vy <- rd py (oy + i) ;; vb <- rd pb (ob + i) ;;
        upd pgb (ogb + i) (fun v => Ok (nsub K v (ndiv K (nmul K vg vy) vb)))) pgb ;;
     Ok (ob + b_shift, oy + volume, og + volume, ogb + b_shift, pgb')) (0, 0, 0, 0, pgb) ;;
  let '(_, _, _, _, pgb') := st in
  Ok (with_buf gb pgb').

(** *** powf.rs L8-40 (PowfBwA). a and ga advance with the shift of a. *)
Definition k_powf_bw_a (a b gy ga : tensor) : res tensor :=
  let volume := nat32 (volume (t_shape gy)) in
  let a_shift := shift (t_shape a) volume in
  let b_shift := shift (t_shape b) volume in
  pa <- ptr a ;; pb <- ptr b ;; pgy <- ptr gy ;; pga <- ptr ga ;;
  st <- forN (nat32 (batch (t_shape gy))) (fun _ '(oa, ob, og, oga, pga) =>
     pga' <- forN volume (fun i pga =>
        vg <- rd pgy (og + i) ;; vb <- rd pb (ob + i) ;; va <- rd pa (oa + i) ;;
        upd pga (oga + i) (fun v =>
          Ok (nadd K v (nmul K (nmul K vg vb) (npowf K va (nsub K vb n1)))))) pga ;;
     Ok (oa + a_shift, ob + b_shift, og + volume, oga + a_shift, pga')) (0, 0, 0, 0, pga) ;;
  let '(_, _, _, _, pga') := st in
  Ok (with_buf ga pga').

(** *** powf.rs L44-76 (PowfBwB) *)
Definition k_powf_bw_b (a y gy gb : tensor) : res tensor :=
  let volume := nat32 (volume (t_shape y)) in
  let a_shift := shift (t_shape a) volume in
  let b_shift := shift (t_shape gb) volume in
  pa <- ptr a ;; py <- ptr y ;; pgy <- ptr gy ;; pgb <- ptr gb ;;
  st <- forN (nat32 (batch (t_shape y))) (fun _ '(oa, oy, og, ogb, pgb) =>
     pgb' <- forN volume (fun i pgb =>
        vg <- rd pgy (og + i) ;; va <- rd pa (oa + i) ;; vy <- rd py (oy + i) ;;
        upd pgb (ogb + i) (fun v => Ok (nadd K v (nmul K (nmul K vg (nln K va)) vy)))) pgb ;;
     Ok (oa + a_shift, oy + volume, og + volume, ogb + b_shift, pgb')) (0, 0, 0, 0, pgb) ;;
  let '(_, _, _, _, pgb') := st in
  Ok (with_buf gb pgb').

(** u32 as i32 *)
Definition as_i32 (k : N) : Z := if (k <? 2147483648)%N then Z.of_N k else (Z.of_N k - 4294967296)%Z.
(** i32 as u32 *)
Definition as_u32 (k : Z) : N := Z.to_N (k mod 4294967296).

(** *** powi.rs L5-19 *)
Definition k_powi_fw (x : tensor) (u32data : list N) (y : tensor) : res tensor :=
  n <- idx u32data 0 ;;
  sz <- size m (t_shape y) ;;
  px <- ptr x ;; py <- ptr y ;;
  py' <- forN (nat32 sz) (fun i py => v <- rd px i ;; wr py i (npowi K v (as_i32 n))) py ;;
  Ok (with_buf y py').

(** i32 subtraction: n - 1 *)
Definition sub_i32 (a b : Z) : res Z :=
  let r := (a - b)%Z in
  if ((-2147483648 <=? r) && (r <=? 2147483647))%Z then Ok r
  else match m with Debug => Panic | Release => Ok (((r + 2147483648) mod 4294967296) - 2147483648)%Z end.

(** *** powi.rs L21-45 *)
Definition k_powi_bw (x gy : tensor) (u32data : list N) (gx : tensor) : res tensor :=
  n <- idx u32data 0 ;;
  sz <- size m (t_shape gy) ;;
  px <- ptr x ;; pgy <- ptr gy ;; pgx <- ptr gx ;;
  pgx' <- forN (nat32 sz) (fun i pgx =>
     vg <- rd pgy i ;; vx <- rd px i ;; n1 <- sub_i32 (as_i32 n) 1 ;;
     upd pgx i (fun v => Ok (nadd K v (nmul K (nmul K vg (nofZ K (as_i32 n))) (npowi K vx n1))))) pgx ;;
  Ok (with_buf gx pgx').

(** *** add_assign.rs L7-27, sub_assign.rs L7-27: [acc] is the compound assignment.
    x_skip / y_skip test has_batch(). *)
Definition k_assign (acc : F -> F -> F) (x y : tensor) : res tensor :=
  let volume := nat32 (volume (t_shape x)) in
  let x_skip := if has_batch (t_shape x) then volume else 0 in
  let y_skip := if has_batch (t_shape y) then volume else 0 in
  let bs := nat32 (N.max (batch (t_shape x)) (batch (t_shape y))) in
  px <- ptr x ;; py <- ptr y ;;
  st <- forN bs (fun _ '(ox, oy, py) =>
     py' <- forN volume (fun i py => vx <- rd px (ox + i) ;; upd py (oy + i) (fun v => Ok (acc v vx))) py ;;
     Ok (ox + x_skip, oy + y_skip, py')) (0, 0, py) ;;
  let '(_, _, py') := st in
  Ok (with_buf y py').

(** *** mul_assign.rs L5-17 *)
Definition k_mul_assign (k : F) (y : tensor) : res tensor :=
  sz <- size m (t_shape y) ;;
  py <- ptr y ;;
  py' <- forN (nat32 sz) (fun i py => upd py i (fun v => Ok (nmul K v k))) py ;;
  Ok (with_buf y py').

(** *** reset_tensor.rs L6-18 *)
Definition k_reset (k : F) (y : tensor) : res tensor :=
  sz <- size m (t_shape y) ;;
  py <- ptr y ;;
  py' <- forN (nat32 sz) (fun i py => wr py i k) py ;;
  Ok (with_buf y py').

(** *** reset_tensor.rs L21-33: the values are a slice, indexing is checked *)
Definition k_reset_slice (values : list F) (y : tensor) : res tensor :=
  sz <- size m (t_shape y) ;;
  py <- ptr y ;;
  py' <- forN (nat32 sz) (fun i py => v <- idx values i ;; wr py i v) py ;;
  Ok (with_buf y py').

(** *** tensor_to_vector.rs L5-17: [y] is a host slice, writes are checked *)
Definition k_to_vector (x : tensor) (y : list F) : res (list F) :=
  sz <- size m (t_shape x) ;;
  px <- ptr x ;;
  forN (nat32 sz) (fun i y => v <- rd px i ;; aset y i v) y.

(** *** identity.rs L5-17; y.reset(0.) goes through the device (tensor.rs L88) *)
Definition k_identity (y : tensor) : res tensor :=
  y <- k_reset n0 y ;;
  let size := nat32 (index (t_shape y) 0) in
  py <- ptr y ;;
  py' <- forN size (fun i py => wr py (i * (size + 1)) n1) py ;;
  Ok (with_buf y py').

(** line start: [i % skip1 + (i / skip1) * skip2] *)
Definition line (i skip1 skip2 : nat) : nat := i mod skip1 + (i / skip1) * skip2.

(** *** sum.rs L5-28. [i % skip1] with skip1 = 0 would panic; lower_volume is positive. *)
Definition k_sum (x : tensor) (dim : nat) (y : tensor) : res tensor :=
  let n := nat32 (index (t_shape x) dim) in
  repeat <- size m (t_shape y) ;;
  skip1 <- lower_volume m (t_shape y) dim ;;
  let skip1 := nat32 skip1 in
  let skip2 := skip1 * n in
  px <- ptr x ;; py <- ptr y ;;
  py' <- forN (nat32 repeat) (fun i py =>
     st <- forN n (fun _ '(offset, tmp) => v <- rd px offset ;; Ok (offset + skip1, nadd K tmp v))
             (line i skip1 skip2, n0) ;;
     wr py i (snd st)) py ;;
  Ok (with_buf y py').

(** *** max.rs L5-30 / min.rs L5-30: [better a b] is [a > b] (max) or [a < b] (min) *)
Definition k_extremum (better : F -> F -> bool) (x : tensor) (dim : nat) (y : tensor) : res tensor :=
  let n := nat32 (index (t_shape x) dim) in
  repeat <- size m (t_shape y) ;;
  skip1 <- lower_volume m (t_shape y) dim ;;
  let skip1 := nat32 skip1 in
  let skip2 := skip1 * n in
  px <- ptr x ;; py <- ptr y ;;
  py' <- forN (nat32 repeat) (fun i py =>
     v0 <- rd px (line i skip1 skip2) ;;
     st <- forN n (fun _ '(offset, tmp) =>
             v <- rd px offset ;;
             tmp' <- (if better v tmp then rd px offset else Ok tmp) ;;
             Ok (offset + skip1, tmp')) (line i skip1 skip2, v0) ;;
     wr py i (snd st)) py ;;
  Ok (with_buf y py').

(** the scan [for _ in 0..n { if *px.add(offset) == v { ..; break; } offset += skip1 }] *)
Fixpoint find_first (px : list F) (v : F) (skip1 n offset : nat) : res (option nat) :=
  match n with
  | O => Ok None
  | S n' => w <- rd px offset ;;
            if neqb K w v then Ok (Some offset) else find_first px v skip1 n' (offset + skip1)
  end.

(** *** max.rs L33-69 / min.rs L33-69 (identical code) *)
Definition k_extremum_bw (x y gy : tensor) (dim : nat) (gx : tensor) : res tensor :=
  let n := nat32 (index (t_shape x) dim) in
  repeat <- size m (t_shape y) ;;
  skip1 <- lower_volume m (t_shape y) dim ;;
  let skip1 := nat32 skip1 in
  let skip2 := skip1 * n in
  py <- ptr y ;; px <- ptr x ;; pgy <- ptr gy ;; pgx <- ptr gx ;;
  pgx' <- forN (nat32 repeat) (fun i pgx =>
     v <- rd py i ;;
     o <- find_first px v skip1 n (line i skip1 skip2) ;;
     match o with
     | None => Ok pgx
     | Some offset => vg <- rd pgy i ;; upd pgx offset (fun w => Ok (nadd K w vg))
     end) pgx ;;
  Ok (with_buf gx pgx').

(** *** logsumexp.rs L5-33: pairwise, in f64 *)
Definition k_logsumexp (x : tensor) (dim : nat) (y : tensor) : res tensor :=
  let n := nat32 (index (t_shape x) dim) in
  repeat <- size m (t_shape y) ;;
  skip1 <- lower_volume m (t_shape y) dim ;;
  let skip1 := nat32 skip1 in
  let skip2 := skip1 * n in
  px <- ptr x ;; py <- ptr y ;;
  py' <- forN (nat32 repeat) (fun i py =>
     v0 <- rd px (line i skip1 skip2) ;;
     st <- forR 1 n (fun _ '(offset, tmp) =>
             v <- rd px (offset + skip1) ;;
             let arg := widen K v in
             let tmp' := if wlt K arg tmp
                         then wadd K tmp (wln K (wadd K w1 (wexp K (wsub K arg tmp))))
                         else wadd K arg (wln K (wadd K w1 (wexp K (wsub K tmp arg)))) in
             Ok (offset + skip1, tmp')) (line i skip1 skip2, widen K v0) ;;
     wr py i (narrow K (snd st))) py ;;
  Ok (with_buf y py').

(** *** argmax.rs L5-32 / argmin.rs L5-32; ys is a host slice of u32.
    [size / n]: n is an extent, positive. *)
Definition k_arg (better : F -> F -> bool) (x : tensor) (dim : nat) (y : list N) : res (list N) :=
  let s := t_shape x in
  let n := nat32 (index s dim) in
  sz <- size m s ;;
  let repeat := nat32 sz / n in
  skip1 <- lower_volume m s dim ;;
  let skip1 := nat32 skip1 in
  let skip2 := skip1 * n in
  src <- ptr x ;;
  forN repeat (fun i y =>
     v0 <- rd src (line i skip1 skip2) ;;
     st <- forR 1 n (fun j '(offset, mx, ag) =>
             v <- rd src (offset + skip1) ;;
             if better v mx then Ok (offset + skip1, v, j) else Ok (offset + skip1, mx, ag))
           (line i skip1 skip2, v0, 0) ;;
     let '(_, _, ag) := st in
     aset y i (N.of_nat ag mod two32)%N) y.

(** *** broadcast.rs L5-27; u32data = [dim, size] *)
Definition k_broadcast (x : tensor) (dim : nat) (bsize : N) (y : tensor) : res tensor :=
  repeat <- size m (t_shape x) ;;
  skip1 <- lower_volume m (t_shape y) dim ;;
  let skip1 := nat32 skip1 in
  let skip2 := skip1 * nat32 bsize in
  src <- ptr x ;; dest <- ptr y ;;
  dest' <- forN (nat32 repeat) (fun i dest =>
     tmp <- rd src i ;;
     st <- forN (nat32 bsize) (fun _ '(offset, dest) =>
             dest' <- wr dest offset tmp ;; Ok (offset + skip1, dest')) (line i skip1 skip2, dest) ;;
     Ok (snd st)) dest ;;
  Ok (with_buf y dest').

(** *** slice.rs L7-29; u32data = [dim, offset] *)
Definition k_slice_fw (x : tensor) (u32data : list N) (y : tensor) : res tensor :=
  dim <- idx u32data 0 ;; let dim := nat32 dim in
  offset <- idx u32data 1 ;; let offset := nat32 offset in
  base <- lower_volume m (t_shape y) dim ;;
  let base := nat32 base in
  let span := base * nat32 (index (t_shape y) dim) in
  let skip := base * nat32 (index (t_shape x) dim) in
  sz <- size m (t_shape y) ;;
  let repeat := nat32 sz / span in
  px <- ptr x ;;
  let src := base * offset in
  py <- ptr y ;;
  st <- forN repeat (fun i st =>
     let sp := src + skip * i in
     forN span (fun j '(dest, py) => v <- rd px (sp + j) ;; py' <- wr py dest v ;; Ok (dest + 1, py')) st) (0, py) ;;
  Ok (with_buf y (snd st)).

(** *** slice.rs L32-78 *)
Definition k_slice_bw (gy : tensor) (u32data : list N) (gx : tensor) : res tensor :=
  dim <- idx u32data 0 ;; let dim := nat32 dim in
  offset <- idx u32data 1 ;; let offset := nat32 offset in
  let sy := t_shape gy in
  let sx := t_shape gx in
  base <- lower_volume m sx dim ;;
  let base := nat32 base in
  let span := base * nat32 (index sy dim) in
  let skip := base * nat32 (index sx dim) in
  let repeat := nat32 (volume sx) / skip in
  let bs := nat32 (N.max (batch sx) (batch sy)) in
  let b_skip_d := if has_batch sx then nat32 (volume sx) else 0 in
  let b_skip_s := if has_batch sy then nat32 (volume sy) else 0 in
  src <- ptr gy ;; pgx <- ptr gx ;;
  let dest := base * offset in
  pgx' <- forN bs (fun b pgx =>
     let dp := dest + b_skip_d * b in
     st <- forN repeat (fun i st =>
        let ddp := dp + skip * i in
        forN span (fun j '(sp, pgx) =>
          v <- rd src sp ;; pgx' <- upd pgx (ddp + j) (fun w => Ok (nadd K w v)) ;; Ok (sp + 1, pgx')) st)
        (b_skip_s * b, pgx) ;;
     Ok (snd st)) pgx ;;
  Ok (with_buf gx pgx').

(** *** pick.rs L5-36; u32data = dim :: ids. [&u32data[1..]] panics on an empty slice,
    but u32data[0] was read before. *)
Definition k_pick_fw (x : tensor) (u32data : list N) (y : tensor) : res tensor :=
  dim <- idx u32data 0 ;; let dim := nat32 dim in
  let ids := tl u32data in
  let bs := nat32 (batch (t_shape y)) in
  let skip_x := if has_batch (t_shape x) then nat32 (volume (t_shape x)) else 0 in
  let skip_i := if 1 <? length ids then 1 else 0 in
  base <- lower_volume m (t_shape y) dim ;;
  let base := nat32 base in
  let skip := base * nat32 (index (t_shape x) dim) in
  let repeat := nat32 (volume (t_shape y)) / base in
  px <- ptr x ;; py <- ptr y ;;
  st <- forN bs (fun b st =>
     id <- idx ids (b * skip_i) ;;
     let src := b * skip_x + base * nat32 id in
     forN repeat (fun i st =>
        let sp := src + skip * i in
        forN base (fun j '(dest, py) => v <- rd px (sp + j) ;; py' <- wr py dest v ;; Ok (dest + 1, py')) st) st)
     (0, py) ;;
  Ok (with_buf y (snd st)).

(** *** pick.rs L39-77 *)
Definition k_pick_bw (gy : tensor) (u32data : list N) (gx : tensor) : res tensor :=
  dim <- idx u32data 0 ;; let dim := nat32 dim in
  let ids := tl u32data in
  let bs := nat32 (batch (t_shape gy)) in
  let skip_x := if has_batch (t_shape gx) then nat32 (volume (t_shape gx)) else 0 in
  let skip_i := if 1 <? length ids then 1 else 0 in
  base <- lower_volume m (t_shape gy) dim ;;
  let base := nat32 base in
  let skip := base * nat32 (index (t_shape gx) dim) in
  let repeat := nat32 (volume (t_shape gy)) / base in
  pgy <- ptr gy ;; pgx <- ptr gx ;;
  st <- forN bs (fun b st =>
     id <- idx ids (b * skip_i) ;;
     let dest := b * skip_x + base * nat32 id in
     forN repeat (fun i st =>
        let dp := dest + skip * i in
        forN base (fun j '(src, pgx) =>
          v <- rd pgy src ;; pgx' <- upd pgx (dp + j) (fun w => Ok (nadd K w v)) ;; Ok (src + 1, pgx')) st) st)
     (0, pgx) ;;
  Ok (with_buf gx (snd st)).

(** *** concat.rs L5-40; u32data = [dim]. [dest] advances by [skip] after every block. *)
Definition k_concat (xs : list tensor) (dim : nat) (y : tensor) : res tensor :=
  let new_bs := nat32 (batch (t_shape y)) in
  base <- lower_volume m (t_shape y) dim ;;
  let base := nat32 base in
  let skip := base * nat32 (index (t_shape y) dim) in
  let repeat := nat32 (volume (t_shape y)) / skip in
  st <- forL xs (fun x '(offset, y) =>
     let src_dim := nat32 (index (t_shape x) dim) in
     let span := base * src_dim in
     let b_skip := if has_batch (t_shape x) then span * repeat else 0 in
     src <- ptr x ;; py <- ptr y ;;
     st <- forN new_bs (fun b '(dest, py) =>
        st <- forN repeat (fun _ '(sp, dest, py) =>
           st <- forN span (fun j '(sp, py) => v <- rd src sp ;; py' <- wr py (dest + j) v ;; Ok (sp + 1, py')) (sp, py) ;;
           let '(sp, py) := st in
           Ok (sp, dest + skip, py)) (b_skip * b, dest, py) ;;
        let '(_, dest, py) := st in Ok (dest, py)) (offset, py) ;;
     Ok (offset + span, with_buf y (snd st))) (0, y) ;;
  Ok (snd st).

(** *** batch_concat.rs L5-22 *)
Definition k_batch_concat (xs : list tensor) (y : tensor) : res tensor :=
  py <- ptr y ;;
  st <- forL xs (fun x '(offset, py) =>
     px <- ptr x ;;
     sz <- size m (t_shape x) ;;
     let span := nat32 sz in
     py' <- forN span (fun i py => v <- rd px i ;; wr py (offset + i) v) py ;;
     Ok (offset + span, py')) (0, py) ;;
  Ok (with_buf y (snd st)).

(** *** batch_pick.rs L5-24 (u32data = ids) *)
Definition k_batch_pick_fw (x : tensor) (ids : list N) (y : tensor) : res tensor :=
  let bs := nat32 (batch (t_shape y)) in
  let span := nat32 (volume (t_shape x)) in
  px <- ptr x ;; py <- ptr y ;;
  py' <- forN bs (fun b py =>
     id <- idx ids b ;;
     let src := span * nat32 id in
     let dest := span * b in
     forN span (fun i py => v <- rd px (src + i) ;; wr py (dest + i) v) py) py ;;
  Ok (with_buf y py').

(** *** batch_pick.rs L27-53 *)
Definition k_batch_pick_bw (gy : tensor) (ids : list N) (gx : tensor) : res tensor :=
  let bs := nat32 (batch (t_shape gy)) in
  let span := nat32 (volume (t_shape gx)) in
  pgy <- ptr gy ;; pgx <- ptr gx ;;
  pgx' <- forN bs (fun b pgx =>
     id <- idx ids b ;;
     let src := span * b in
     let dest := span * nat32 id in
     forN span (fun i pgx => v <- rd pgy (src + i) ;; upd pgx (dest + i) (fun w => Ok (nadd K w v))) pgx) pgx ;;
  Ok (with_buf gx pgx').

(** *** batch_slice.rs L5-20 (u32data = [lower, upper]) *)
Definition k_batch_slice_fw (x : tensor) (u32data : list N) (y : tensor) : res tensor :=
  offset <- idx u32data 0 ;;
  let volume := nat32 (volume (t_shape y)) in
  let repeat := nat32 (batch (t_shape y)) in
  px <- ptr x ;;
  let src := volume * nat32 offset in
  py <- ptr y ;;
  py' <- forN (volume * repeat) (fun i py => v <- rd px (src + i) ;; wr py i v) py ;;
  Ok (with_buf y py').

(** *** batch_slice.rs L23-45 *)
Definition k_batch_slice_bw (gy : tensor) (u32data : list N) (gx : tensor) : res tensor :=
  offset <- idx u32data 0 ;;
  let volume := nat32 (volume (t_shape gy)) in
  let repeat := nat32 (batch (t_shape gy)) in
  pgy <- ptr gy ;; pgx <- ptr gx ;;
  let dest := volume * nat32 offset in
  pgx' <- forN (volume * repeat) (fun i pgx => v <- rd pgy i ;; upd pgx (dest + i) (fun w => Ok (nadd K w v))) pgx ;;
  Ok (with_buf gx pgx').

(** *** batch_sum.rs L5-25 *)
Definition k_batch_sum (x y : tensor) : res tensor :=
  let bs := nat32 (batch (t_shape x)) in
  sz <- size m (t_shape y) ;;
  let size := nat32 sz in
  px <- ptr x ;; py <- ptr y ;;
  py' <- forN size (fun i py =>
     st <- forN bs (fun _ '(p, temp) => v <- rd px p ;; Ok (p + size, nadd K temp v)) (i, n0) ;;
     wr py i (snd st)) py ;;
  Ok (with_buf y py').

(** [(0..n).step_by(k)] *)
Definition steps_by (n k : nat) : list nat := map (fun i => i * k) (seq 0 ((n + k - 1) / k)).

(** *** matmul.rs L8-54: 8 x 8 x 8 blocks *)
Definition k_matmul (a b y : tensor) : res tensor :=
  let d1 := nat32 (index (t_shape a) 0) in
  let d2 := nat32 (index (t_shape a) 1) in
  let d3 := nat32 (index (t_shape b) 1) in
  let bs := nat32 (batch (t_shape y)) in
  let size := d1 * d3 in
  let skip_a := if has_batch (t_shape a) then d1 * d2 else 0 in
  let skip_b := if has_batch (t_shape b) then d2 * d3 else 0 in
  pa <- ptr a ;; pb <- ptr b ;; py <- ptr y ;;
  st <- forN bs (fun _ '(oa, ob, oy, py) =>
     py <- forN size (fun n py => wr py (oy + n) n0) py ;;
     py <- forL (steps_by d3 8) (fun k py =>
        let ek := Nat.min (k + 8) d3 in
        forL (steps_by d1 8) (fun i py =>
           let ei := Nat.min (i + 8) d1 in
           forL (steps_by d2 8) (fun j py =>
              let ej := Nat.min (j + 8) d2 in
              forR k ek (fun kk py =>
                 let kk_d1 := kk * d1 in
                 let kk_d2 := kk * d2 in
                 forR i ei (fun ii py =>
                    tmp <- forR j ej (fun jj tmp =>
                             va <- rd pa (oa + (ii + jj * d1)) ;; vb <- rd pb (ob + (jj + kk_d2)) ;;
                             Ok (nadd K tmp (nmul K va vb))) n0 ;;
                    upd py (oy + (ii + kk_d1)) (fun v => Ok (nadd K v tmp))) py) py) py) py) py ;;
     Ok (oa + skip_a, ob + skip_b, oy + size, py)) (0, 0, 0, py) ;;
  let '(_, _, _, py') := st in
  Ok (with_buf y py').

(** *** transpose.rs L6-34 *)
Definition k_transpose (x y : tensor) : res tensor :=
  let d1 := nat32 (index (t_shape x) 0) in
  let d2 := nat32 (index (t_shape x) 1) in
  let ms := d1 * d2 in
  let bs := nat32 (batch (t_shape y)) in
  px <- ptr x ;; py <- ptr y ;;
  st <- forN bs (fun _ '(shift_y, k, py) =>
     st <- forN d2 (fun _ '(p, k, py) =>
        st <- forN d1 (fun _ '(pp, k, py) =>
           v <- rd px k ;; py' <- wr py pp v ;; Ok (pp + d2, k + 1, py')) (p, k, py) ;;
        let '(_, k, py) := st in Ok (p + 1, k, py)) (shift_y, k, py) ;;
     let '(_, k, py) := st in Ok (shift_y + ms, k, py)) (0, 0, py) ;;
  let '(_, _, py') := st in
  Ok (with_buf y py').

(** *** triangular_l.rs L6-27 ([keep i j] is [i >= j + k]) and triangular_u.rs L6-27
    ([j >= i + k]); the addition is on u32. [upper] selects the variant. *)
Definition k_triangular (upper : bool) (x : tensor) (k : N) (y : tensor) : res tensor :=
  let size := nat32 (index (t_shape x) 0) in
  let bs := nat32 (batch (t_shape y)) in
  px <- ptr x ;; py <- ptr y ;;
  st <- forN bs (fun _ st =>
     forN size (fun j st =>
        forN size (fun i '(p, py) =>
           keep <- (if upper then s <- add32 m (N.of_nat i) k ;; Ok (s <=? N.of_nat j)%N
                    else s <- add32 m (N.of_nat j) k ;; Ok (s <=? N.of_nat i)%N) ;;
           v <- (if keep : bool then rd px p else Ok n0) ;;
           py' <- wr py p v ;; Ok (p + 1, py')) st) st) (0, py) ;;
  Ok (with_buf y (snd st)).

(** *** flip.rs L5-25 (forward: write) and L28-55 (backward: [+=]).
    [i * n - i % skip * (n - 1)] on usize: the subtrahend never exceeds the minuend. *)
Definition flip_offset (i n skip : nat) : nat := i * n - i mod skip * (n - 1).
Definition k_flip_fw (x : tensor) (dim : nat) (y : tensor) : res tensor :=
  let s := t_shape x in
  let n := nat32 (index s dim) in
  skip <- lower_volume m s dim ;;
  let skip := nat32 skip in
  sz <- size m s ;;
  let r := nat32 sz / n in
  px <- ptr x ;; py <- ptr y ;;
  py' <- forN n (fun j py => forN r (fun i py =>
     let offset := flip_offset i n skip in
     v <- rd px (offset + (n - j - 1) * skip) ;; wr py (offset + j * skip) v) py) py ;;
  Ok (with_buf y py').
Definition k_flip_bw (gy : tensor) (dim : nat) (gx : tensor) : res tensor :=
  let s := t_shape gx in
  let n := nat32 (index s dim) in
  skip <- lower_volume m s dim ;;
  let skip := nat32 skip in
  sz <- size m s ;;
  let r := nat32 sz / n in
  pgy <- ptr gy ;; pgx <- ptr gx ;;
  pgx' <- forN n (fun j pgx => forN r (fun i pgx =>
     let offset := flip_offset i n skip in
     v <- rd pgy (offset + (n - j - 1) * skip) ;; upd pgx (offset + j * skip) (fun w => Ok (nadd K w v))) pgx) pgx ;;
  Ok (with_buf gx pgx').

(** *** permute_dims.rs L10-22 / L56-69: strides. [perm] = u32data. A perm entry
    >= ndims makes [ndims - perm[i] - 1] underflow: in debug a panic; in release the
    index is out of range and panics as well. Products on usize. *)
Definition perm_strides (perm : list N) (sx sy : shape) : res (list nat * list nat) :=
  let ndims := length perm in
  st <- forN ndims (fun i '(xs, ys, xt, yt) =>
     p <- idx perm i ;;
     xs' <- aset xs (ndims - i - 1) xt ;;
     _ <- assert (nat32 p <? ndims) ;;
     ys' <- aset ys (ndims - nat32 p - 1) yt ;;
     Ok (xs', ys', xt * nat32 (index sx i), yt * nat32 (index sy i)))
     (repeat 0 ndims, repeat 0 ndims, 1, 1) ;;
  let '(xs, ys, _, _) := st in Ok (xs, ys).
(** L28-34: [tmp / x_strides[d]] with a zero stride would panic *)
Definition perm_index (xs ys : list nat) (ndims i : nat) : res nat :=
  st <- forN ndims (fun d '(tmp, j) =>
     sx <- idx xs d ;; sy <- idx ys d ;;
     _ <- assert (negb (sx =? 0)) ;;
     let p := tmp / sx in
     Ok (tmp - p * sx, j + p * sy)) (i, 0) ;;
  Ok (snd st).
(** L5-42 *)
Definition k_permute_fw (x : tensor) (perm : list N) (y : tensor) : res tensor :=
  let volume := nat32 (volume (t_shape x)) in
  let bs := nat32 (batch (t_shape x)) in
  ' (xs, ys) <- perm_strides perm (t_shape x) (t_shape y) ;;
  px <- ptr x ;; py <- ptr y ;;
  st <- forN bs (fun _ '(src, dest, py) =>
     py' <- forN volume (fun i py =>
        j <- perm_index xs ys (length perm) i ;; v <- rd px (src + i) ;; wr py (dest + j) v) py ;;
     Ok (src + volume, dest + volume, py')) (0, 0, py) ;;
  let '(_, _, py') := st in
  Ok (with_buf y py').
(** L45-89 *)
Definition k_permute_bw (gy : tensor) (perm : list N) (gx : tensor) : res tensor :=
  let volume := nat32 (volume (t_shape gx)) in
  let bs := nat32 (batch (t_shape gx)) in
  ' (xs, ys) <- perm_strides perm (t_shape gx) (t_shape gy) ;;
  pgy <- ptr gy ;; pgx <- ptr gx ;;
  st <- forN bs (fun _ '(src, dest, pgx) =>
     pgx' <- forN volume (fun i pgx =>
        j <- perm_index xs ys (length perm) i ;; v <- rd pgy (src + j) ;;
        upd pgx (dest + i) (fun w => Ok (nadd K w v))) pgx ;;
     Ok (src + volume, dest + volume, pgx')) (0, 0, pgx) ;;
  let '(_, _, pgx') := st in
  Ok (with_buf gx pgx').

End Kernels.

Arguments mkTensor {K} _ _ _ _.
Arguments t_dev {K} _. Arguments t_shape {K} _. Arguments t_buf {K} _. Arguments t_host {K} _.
Arguments with_buf {K} _ _. Arguments ptr {K} _.
