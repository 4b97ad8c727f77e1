(** Subcone files: the writer. *)
From Coq Require Import String.
From Verif Require Import Common Text TextProofs LatteText LatteTextProofs Subcones SubconesSpec SubconesProofs.
Open Scope Z_scope.

Definition begins (l : list Z) (t : text) : Prop := exists r, numbers l t r.
Lemma blanks_repeat n : blanks (repeat " "%char n). Proof. induction n; constructor; auto. Qed.
Lemma begins_bits v : forall b l t, blanks b -> (forall b', blanks b' -> begins l (b' ++ t)) -> begins (map bit v ++ l) (b ++ show_bits v ++ t).
Proof.
  induction v as [|x v IH]; intros b l t B H.
  - cbn [map app show_bits flat_map]. change (b ++ newline :: t)%list with (b ++ [newline] ++ t)%list. rewrite app_assoc. apply H. apply Forall_app. split; [exact B|]. constructor; [reflexivity|constructor].
  - destruct (IH [" "%char] l t ltac:(repeat constructor) H) as (r & N). exists r. cbn [map app].
    replace (b ++ show_bits (x :: v) ++ t)%list with (b ++ show_Z (bit x) ++ [" "%char] ++ show_bits v ++ t)%list by (destruct x; reflexivity). constructor; [exact B| |exact N]. now exists " "%char, (show_bits v ++ t)%list.
Qed.
Lemma begins_rows rows : forall b tail, blanks b -> begins (concat (map (map bit) rows)) (b ++ flat_map show_bits rows ++ tail).
Proof.
  induction rows as [|v rows IH]; intros b tail B; [exists (b ++ tail)%list; constructor|]. cbn [map concat flat_map]. rewrite <- app_assoc. apply begins_bits; [exact B|]. intros b' B'. now apply IH.
Qed.
(** The file: a header of 16 characters, the dimension, the rows. *)
Definition file_text (h : text) (dim : nat) (rows : list (list bool)) : text := (h ++ " "%char :: show_nat dim ++ [newline] ++ flat_map show_bits rows)%list.
Lemma file_begins z dim rows more tail : begins (z :: Z.of_nat dim :: concat (map (map bit) rows) ) (file_text (pad16 (show_Z z)) dim (rows ++ more) ++ tail).
Proof.
  destruct (begins_rows rows [newline] (flat_map show_bits more ++ tail) ltac:(repeat constructor)) as (r & N). exists r. unfold file_text, pad16. rewrite flat_map_app.
  replace (((show_Z z ++ repeat " "%char (16 - length (show_Z z))) ++ " "%char :: show_nat dim ++ [newline] ++ flat_map show_bits rows ++ flat_map show_bits more) ++ tail)%list
    with ([] ++ show_Z z ++ (repeat " "%char (16 - length (show_Z z)) ++ [" "%char]) ++ show_Z (Z.of_nat dim) ++ [newline] ++ flat_map show_bits rows ++ flat_map show_bits more ++ tail)%list by (unfold show_nat; repeat (rewrite <- !app_assoc || cbn [app]); reflexivity).
  constructor; [constructor| |].
  - destruct (16 - length (show_Z z))%nat as [|k]; cbn [repeat app]; [now eexists _, _|now eexists _, _].
  - apply more_numbers; [apply Forall_app; split; [apply blanks_repeat|repeat constructor]| |exact N]. now eexists _, _.
Qed.
Lemma pad_length t : (length t <= 16)%nat -> length (pad16 t) = 16%nat.
Proof. intros H. unfold pad16. rewrite app_length, repeat_length. lia. Qed.
Definition header (o : option nat) : text := pad16 (show_Z (match o with Some n => Z.of_nat n | None => -1 end)).
Lemma run_ok dim ops : forall rows last w, Z.of_nat (length rows + length (written ops)) < 10 ^ 16 -> Forall (fun v => length v = dim) (written ops) ->
  (match last with Some n => (n <= length rows)%nat | None => True end) -> w = mkWriter (file_text (header last) dim rows) (Z.of_nat (length rows)) dim ->
  exists w', run w ops = Ok w' /\ contents w' = file_text (header (counted_from (length rows) last ops)) dim (rows ++ written ops) /\
  (match counted_from (length rows) last ops with Some n => (n <= length rows + length (written ops))%nat | None => True end).
Proof.
  induction ops as [|o ops IH]; intros rows last w L F LL ->.
  - exists (mkWriter (file_text (header last) dim rows) (Z.of_nat (length rows)) dim). split; [reflexivity|]. cbn [contents counted_from written]. rewrite app_nil_r. split; [reflexivity|]. destruct last; [cbn; lia|exact I].
  - destruct o as [v|]; cbn [written] in *.
    + inversion_clear F as [|? ? Lv F']. cbn [run]. unfold write_vector. cbn [dimension contents num_vectors]. rewrite Lv, Nat.eqb_refl. cbn [bind].
      destruct (IH (rows ++ [v])%list last (mkWriter (file_text (header last) dim rows ++ show_bits v) (Z.of_nat (length rows) + 1) dim)) as (w' & R & C & N).
      * rewrite app_length. cbn [length] in L |- *. lia.
      * exact F'.
      * destruct last; [rewrite app_length; lia|exact I].
      * f_equal; [|rewrite app_length; cbn [length]; lia]. unfold file_text. rewrite flat_map_app. cbn [flat_map]. rewrite app_nil_r. repeat (rewrite <- !app_assoc || cbn [app]). reflexivity.
      * exists w'. split; [exact R|]. cbn [counted_from]. rewrite app_length in C, N. cbn [length] in C, N. rewrite Nat.add_1_r in C, N. rewrite <- app_assoc in C. split; [exact C|]. destruct (counted_from (S (length rows)) last ops); [cbn [length]; lia|exact I].
    + cbn [run]. apply (IH rows (Some (length rows))); [exact L|exact F|cbn; lia|]. unfold update_num_vectors. cbn [num_vectors contents dimension]. f_equal.
      assert (LN : (length (pad16 (show_Z (Z.of_nat (length rows)))) = 16)%nat) by (apply pad_length, show_short; lia). rewrite LN. unfold file_text, header. f_equal.
      assert (LH : (length (pad16 (show_Z (match last with Some n => Z.of_nat n | None => -1 end))) = 16)%nat) by (destruct last; [apply pad_length, show_short; lia|reflexivity]). rewrite <- LH at 1. now rewrite skipn_app, skipn_all, Nat.sub_diag.
Qed.
(** ** Which rays *)
Lemma same_vector_eq a b : same_vector a b = true <-> a = b.
Proof. unfold same_vector. destruct (list_eq_dec Z.eq_dec a b); split; congruence. Qed.
Lemma find_index_ok rs v : forall i, match find_index i rs v with Some j => (i <= j < i + length rs)%nat /\ vector (nth (j - i) rs (mkRay [] 0)) = v | None => ~ In v (map vector rs) end.
Proof.
  induction rs as [|r rs IH]; intros i; cbn [find_index]; [auto|]. destruct (same_vector (vector r) v) eqn:E.
  - apply same_vector_eq in E. split; [cbn; lia|]. now rewrite Nat.sub_diag.
  - specialize (IH (S i)). destruct (find_index (S i) rs v) as [j|].
    + destruct IH as [A B]. split; [cbn; lia|]. replace (j - i)%nat with (S (j - S i)) by lia. exact B.
    + intros [H|H]; [|auto]. apply same_vector_eq in H. congruence.
Qed.
Lemma ray_index_ok master r : match ray_index master r with Ok i => (i < length master)%nat /\ vector (nth i master (mkRay [] 0)) = vector r | Err e => e = Exited /\ ~ In (vector r) (map vector master) end.
Proof.
  unfold ray_index. destruct ((0 <=? hint r) && (hint r <? Z.of_nat (length master)) && same_vector (vector r) (vector (nth (Z.to_nat (hint r)) master (mkRay [] 0)))) eqn:E.
  - apply andb_true_iff in E as [E1 E]. apply andb_true_iff in E1 as [E1 E2]. apply same_vector_eq in E. apply Z.leb_le in E1. apply Z.ltb_lt in E2. split; [lia|congruence].
  - pose proof (find_index_ok master (vector r) 0) as F. destruct (find_index 0 master (vector r)) as [i|]; [|auto]. rewrite Nat.sub_0_r in F. split; [lia|tauto].
Qed.
Lemma set_bit_ok v : forall i, (i < length v)%nat -> exists v', set_bit v i = Ok v' /\ length v' = length v /\ forall j, nth j v' false = (Nat.eqb j i || nth j v false).
Proof.
  induction v as [|b v IH]; intros i Hi; [cbn in Hi; lia|]. destruct i as [|i]; cbn [set_bit].
  - exists (true :: v). split; [reflexivity|]. split; [reflexivity|]. intros [|j]; reflexivity.
  - destruct (IH i ltac:(cbn in Hi; lia)) as (v' & E & L & N). rewrite E. exists (b :: v'). split; [reflexivity|]. split; [cbn; now rewrite L|]. intros [|j]; cbn [nth Nat.eqb]; [reflexivity|apply N].
Qed.
Lemma set_bit_length v : forall i v', set_bit v i = Ok v' -> length v' = length v.
Proof.
  induction v as [|b v IH]; intros [|i] v' H; cbn [set_bit] in H; try discriminate H; [injection H as <-; reflexivity|]. destruct (set_bit v i) as [x|] eqn:E; [|discriminate H]. cbn [bind] in H. injection H as <-. cbn. f_equal. now apply (IH i).
Qed.
Lemma indicate_length master rs : forall v v', indicate master rs v = Ok v' -> length v' = length v.
Proof.
  induction rs as [|r rs IH]; intros v v' H; cbn [indicate] in H; [injection H as <-; reflexivity|]. destruct (ray_index master r) as [i|]; [|discriminate H]. cbn [bind] in H. destruct (set_bit v i) as [x|] eqn:E; [|discriminate H]. cbn [bind] in H. rewrite (IH _ _ H). now apply (set_bit_length v i).
Qed.
Lemma indicate_ok master rs : forall v, length v = length master -> incl (map vector rs) (map vector master) ->
  exists v', indicate master rs v = Ok v' /\ length v' = length master /\ (forall j, nth j v' false = true -> nth j v false = true \/ In (vector (nth j master (mkRay [] 0))) (map vector rs)) /\
  (forall j, nth j v false = true -> nth j v' false = true) /\ forall x, In x (map vector rs) -> exists j, (j < length master)%nat /\ nth j v' false = true /\ vector (nth j master (mkRay [] 0)) = x.
Proof.
  induction rs as [|r rs IH]; intros v L I; [exists v; split; [reflexivity|]; split; [exact L|]; split; [auto|]; split; [auto|intros x []]|]. cbn [indicate]. pose proof (ray_index_ok master r) as R. destruct (ray_index master r) as [i|e]; [|exfalso; apply R; apply I; now left]. destruct R as [Hi Ei].
  destruct (set_bit_ok v i ltac:(lia)) as (v1 & E1 & L1 & N1). destruct (IH v1 ltac:(lia)) as (v' & E & L' & A & B & C); [intros x Hx; apply I; now right|]. exists v'. cbn [bind]. rewrite E1. cbn [bind]. split; [exact E|]. split; [exact L'|]. split; [|split].
  - intros j Hj. destruct (A j Hj) as [H|H]; [|right; now right]. rewrite N1 in H. apply orb_true_iff in H as [H|H]; [|now left]. apply Nat.eqb_eq in H. subst j. right. left. now symmetry.
  - intros j Hj. apply B. rewrite N1, Hj. apply orb_true_r.
  - intros x [<-|Hx]; [|exact (C x Hx)]. exists i. split; [exact Hi|]. split; [|exact Ei]. apply B. now rewrite N1, Nat.eqb_refl.
Qed.
Lemma indicate_foreign master rs : forall v, length v = length master -> ~ incl (map vector rs) (map vector master) -> indicate master rs v = Err Exited.
Proof.
  induction rs as [|r rs IH]; intros v L N; [exfalso; apply N; intros x []|]. cbn [indicate]. pose proof (ray_index_ok master r) as R. destruct (ray_index master r) as [i|e]; [|cbn [bind]; destruct R as [-> _]; reflexivity]. destruct R as [Hi Ei]. cbn [bind].
  destruct (set_bit_ok v i ltac:(lia)) as (v1 & E1 & L1 & _). rewrite E1. cbn [bind]. apply IH; [lia|]. intros H. apply N. intros x [<-|Hx]; [|now apply H]. cbn. rewrite <- Ei. apply in_map, nth_In, Hi.
Qed.
Lemma map_size_nodup master : NoDup (map vector master) -> map_size master = length master.
Proof. intros N. unfold map_size. rewrite nodup_fixed_point by exact N. apply map_length. Qed.
Lemma nodup_short {A} (D : forall x y : A, {x = y} + {x <> y}) (l : list A) : (length (nodup D l) <= length l)%nat.
Proof. apply NoDup_incl_length; [apply NoDup_nodup|]. intros x. apply nodup_In. Qed.
Lemma map_size_dup master : ~ NoDup (map vector master) -> (map_size master < length master)%nat.
Proof.
  intros N. unfold map_size. rewrite <- (map_length vector master). induction (map vector master) as [|a l IH]; [exfalso; apply N; constructor|]. cbn [nodup]. destruct (in_dec (list_eq_dec Z.eq_dec) a l) as [I|I]; cbn [length].
  - pose proof (nodup_short (list_eq_dec Z.eq_dec) l). lia.
  - assert (X : ~ NoDup l) by (intros H; apply N; now constructor). specialize (IH X). lia.
Qed.
(** Every cone gives a row that marks its rays. *)
Definition row_of (master : list ray) (rs : list ray) (row : list bool) : Prop :=
  length row = length master /\ forall v, In v (map vector rs) <-> exists i, (i < length master)%nat /\ nth i row false = true /\ vector (nth i master (mkRay [] 0)) = v.
Lemma consume_all_ok {V} (master : list ray) (cones : list (cone V)) : NoDup (map vector master) -> (forall c, In c cones -> incl (map vector (rays c)) (map vector master)) ->
  exists rows, Forall2 (fun c row => row_of master (rays c) row) cones rows /\ forall w, dimension w = length master -> consume_all master w cones = run w (map WriteVector rows).
Proof.
  intros N. induction cones as [|c l IH]; intros I; [exists []; split; [constructor|reflexivity]|]. destruct (IH ltac:(intros x Hx; apply I; now right)) as (rows & F & R).
  destruct (indicate_ok master (rays c) (repeat false (map_size master))) as (v & E & L & A & B & C); [rewrite repeat_length; now apply map_size_nodup|apply I; now left|].
  exists (v :: rows). split.
  - constructor; [|exact F]. split; [exact L|]. intros x. split; [apply C|]. intros (i & Hi & Bi & <-). destruct (A i Bi) as [H|H]; [|exact H]. exfalso. revert H. rewrite nth_repeat. discriminate.
  - intros w D. cbn [consume_all map run]. unfold consume_cone at 1. rewrite E. cbn [bind]. unfold write_vector. rewrite L, D, Nat.eqb_refl. cbn [bind]. now apply R.
Qed.
