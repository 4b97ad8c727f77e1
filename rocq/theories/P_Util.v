(** Property theorems about timers, conversions and random numbers (C36, C38, C50, C57, C58). *)
From Verif Require Import Common Util UtilSpec UtilProofs.
Open Scope Z_scope.

(** C38.  Any history of calls on a new timer: if every call is legal (start when
    stopped, stop when running, clear/read when stopped) the answers are the total
    running time since the last clear; otherwise an assertion fails. *)
Theorem timer_reports_running_time :
  forall ops last,
  if all_legal false ops then exists t', timer_run timer_new ops = Ok (t', answers false last 0 ops)
  else timer_run timer_new ops = Err AssertFail.
Proof. exact timer_history. Qed.
Print Assumptions timer_reports_running_time.
Example timer_demo :
  let ops := [(TStart, 10); (TStop, 15); (TStart, 20); (TStop, 27); (TGet, 30); (TClear, 31); (TGet, 32)] in
  all_legal false ops = true /\ answers false 0 0 ops = [None; None; None; None; Some 12; None; Some 0] /\
  (exists t, timer_run timer_new ops = Ok (t, answers false 0 0 ops)) /\ timer_run timer_new [(TGet, 1); (TStop, 5)] = Err AssertFail.
Proof. cbn. repeat split. eexists. reflexivity. Qed.

(** C36.  Both conversions preserve the value, for every integer, without writing past
    the buffer. *)
Theorem big_integer_conversions_lossless :
  forall z, zz_to_mpz z = z /\ mpz_to_zz z = Ok z.
Proof. exact (fun z => conj (zz_to_mpz_id z) (mpz_to_zz_id z)). Qed.
Print Assumptions big_integer_conversions_lossless.
Example conversion_bytes : bytes_from (-70000) (num_bytes (-70000)) = [112; 17; 1] /\ bytes_from 0 (num_bytes 0) = [] /\
  zz_to_mpz (-70000) = -70000.
Proof. repeat split. Qed.

(** C57.  Conversion to a machine integer never truncates silently. *)
Theorem machine_integer_conversion_exact_or_aborts :
  forall z, zz_to_int z = (if INT_MAX <? Z.abs z then Err Exited else Ok z) /\
            (forall v, zz_to_int z = Ok v -> v = z /\ int_range v = true).
Proof. exact (fun z => conj (zz_to_int_ok z) (zz_to_int_safe z)). Qed.
Print Assumptions machine_integer_conversion_exact_or_aborts.
Example machine_integer_demo : zz_to_int (-2147483647) = Ok (-2147483647) /\ zz_to_int 2147483648 = Err Exited.
Proof. split; reflexivity. Qed.

(** C58.  The modular inner product is the representative in [0,m). *)
Theorem inner_product_modulo_exact :
  forall a b m, 0 < m -> exists r, inner_product_modulo a b m = Ok r /\ 0 <= r < m /\ (m | inner_product a b - r).
Proof. exact ipm_ok. Qed.
Print Assumptions inner_product_modulo_exact.
Example inner_product_modulo_demo : inner_product_modulo [3; -4] [5; 7] 10 = Ok 7.
Proof. reflexivity. Qed.

(** C50.  int version: in range for every generator output, every rounding of the
    double product within half an ulp, and every int range whose size is an int. *)
Theorem random_int_in_range :
  forall rnd from to r, double_rounding rnd -> 0 <= r < 2 ^ 31 ->
  int_range from = true -> int_range to = true -> from <= to -> to - from + 1 <= INT_MAX ->
  exists v, random_int rnd from to r = Ok v /\ from <= v <= to.
Proof. exact random_int_range. Qed.
Print Assumptions random_int_in_range.
(** ... every value is attainable (for ranges of up to 2^31-1024 values) ... *)
Theorem random_int_attains_every_value :
  forall rnd from to v, double_rounding rnd ->
  int_range from = true -> int_range to = true -> from <= v <= to -> to - from + 1 <= 2 ^ 31 - 1024 ->
  exists r, 0 <= r < 2 ^ 31 /\ random_int rnd from to r = Ok v.
Proof. exact random_int_onto. Qed.
Print Assumptions random_int_attains_every_value.
(** ... but a range with more values than INT_MAX overflows int (undefined behaviour). *)
Theorem random_int_wide_range_refuted :
  exists from to, int_range from = true /\ int_range to = true /\ from <= to /\
  forall rnd r, random_int rnd from to r = Err IntOverflow.
Proof. exact random_overflow_witness. Qed.
Print Assumptions random_int_wide_range_refuted.
(** Big-integer version. *)
Theorem random_big_integer_in_range :
  forall bnd from to, (forall n, 0 < n -> 0 <= bnd n < n) -> from <= to -> from <= random_ZZ bnd from to <= to.
Proof. exact random_ZZ_ok. Qed.
Print Assumptions random_big_integer_in_range.
Theorem random_big_integer_attains_every_value :
  forall from to v, from <= v <= to -> exists bnd, (forall n, 0 < n -> 0 <= bnd n < n) /\ random_ZZ bnd from to = v.
Proof. exact random_ZZ_onto. Qed.
Print Assumptions random_big_integer_attains_every_value.
Example random_demo : double_rounding (fun p => p) /\ random_int (fun p => p) (-3) 6 1073741824 = Ok 2 /\ random_int (fun p => p) (-3) 6 2147483647 = Ok 6.
Proof. split; [exact exact_is_rounding|]. split; reflexivity. Qed.
