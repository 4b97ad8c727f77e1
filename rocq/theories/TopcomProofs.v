From Coq Require Import String QArith.
From Verif Require Import Common ZMat Hermite HermiteProofs Text TextProofs LatteText LatteTextProofs PipedSpec PipedProofs PipedProofs3 ConeSpec CountSpec BrionLinear BrionProofs4 EulerProofs TriangSpec Subcones SubconesSpec SubconesProofs Topcom TopcomSpec.
Open Scope Z_scope.

(** ** The reader always ends *)
Lemma skip_space_length s : (length (skip_space s) <= length s)%nat.
Proof. induction s as [|c s IH]; cbn [skip_space]; [lia|]. destruct (is_space c); cbn [length]; lia. Qed.
Lemma take_digits_length s : (length (snd (take_digits s)) <= length s)%nat /\ (fst (take_digits s) <> Decimal.Nil -> (length (snd (take_digits s)) < length s)%nat).
Proof.
  induction s as [|c s [IH _]]; cbn [take_digits]; [cbn; split; [lia|congruence]|]. destruct (digit_of c) as [d|]; [|cbn; split; [lia|congruence]]. destruct (take_digits s) as [x r]. cbn [snd fst length] in *. split; [lia|intros _; lia].
Qed.
Lemma read_signed_length s z r : read_signed s = Some (z, r) -> (length r < length s)%nat.
Proof.
  unfold read_signed. set (p := match s with [] => (false, s) | c :: s' => if is_char "-" c then (true, s') else if is_char "+" c then (false, s') else (false, s) end).
  assert (Lp : (length (snd p) <= length s)%nat) by (unfold p; destruct s as [|c s]; [cbn; lia|]; destruct (is_char "-" c); [cbn; lia|]; destruct (is_char "+" c); cbn; lia).
  destruct p as [neg s2]. cbn [snd] in Lp. pose proof (take_digits_length s2) as [_ T]. destruct (take_digits s2) as [x t]. cbn [fst snd] in T. destruct x; try discriminate; intros E; injection E as _ <-; specialize (T ltac:(discriminate)); lia.
Qed.
Lemma get_int_shrinks u s i s' : get_int u (s, true) = (i, (s', true)) -> (length s' < length s)%nat.
Proof.
  unfold get_int. pose proof (skip_space_length s) as L. destruct (skip_space s) as [|c t]; [intros E; injection E; discriminate|]. destruct (read_signed (c :: t)) as [[z r]|] eqn:E; [|intros X; injection X; discriminate].
  apply read_signed_length in E. destruct (int_range z); intros X; [injection X as _ <- _|discriminate X]. lia.
Qed.
Lemma get_int_length u f : (length (fst (snd (get_int u f))) <= length (fst f))%nat.
Proof.
  destruct f as [s g]. unfold get_int. destruct g; [|cbn; lia]. pose proof (skip_space_length s) as L. destruct (skip_space s) as [|c t]; [cbn; lia|]. destruct (read_signed (c :: t)) as [[z r]|] eqn:E; [apply read_signed_length in E; destruct (int_range z)|]; cbn [snd fst] in *; lia.
Qed.
Lemma skip_comma_length f : (length (fst (skip_comma f)) <= length (fst f))%nat.
Proof. destruct f as [[|c r] [|]]; cbn [skip_comma fst]; try lia. destruct (is_char comma c); cbn [fst length]; lia. Qed.
Lemma skip_comma_good f : snd (skip_comma f) = true -> snd f = true.
Proof. destruct f as [[|c r] [|]]; cbn [skip_comma snd]; auto. Qed.
Lemma read_simplex_ends u rays : forall fuel acc (f : stream), (length (fst f) + (if snd f then 1 else 0) < fuel)%nat ->
  match read_simplex fuel u rays acc f with
  | Ok (_, f') => (length (fst f') <= length (fst f))%nat
  | Err e => e = OutOfBounds
  end.
Proof.
  induction fuel as [|k IH]; intros acc f H; [lia|]. cbn [read_simplex].
  assert (B : forall f0, (length (fst f0) <= length (fst f))%nat -> snd f = true -> (snd f0 = true -> f0 = f) -> match (let '(i, f1) := get_int u f0 in bind (ray_at rays i) (fun r => read_simplex k u rays (r :: acc) (skip_comma f1))) with Ok (_, f') => (length (fst f') <= length (fst f))%nat | Err e => e = OutOfBounds end).
  { intros f0 L0 Gf G. pose proof (get_int_length u f0) as LG. destruct (get_int u f0) as [i f1] eqn:E. cbn [snd] in LG. unfold ray_at. destruct ((0 <=? i) && (i <? Z.of_nat (length rays))); cbn [bind]; [|reflexivity].
    pose proof (skip_comma_length f1) as LS. specialize (IH (nth (Z.to_nat i) rays [] :: acc) (skip_comma f1)). destruct (read_simplex k u rays _ (skip_comma f1)) as [[a f']|e].
    - assert (X : (length (fst f') <= length (fst (skip_comma f1)))%nat); [|lia]. apply IH. destruct (snd (skip_comma f1)) eqn:S; [|rewrite Gf in H; lia]. apply skip_comma_good in S. destruct f1 as [s1 g1]. cbn [snd] in S. subst g1. destruct f0 as [s0 g0]. destruct g0; [|unfold get_int in E; injection E as _ _ E; discriminate]. apply get_int_shrinks in E. rewrite Gf in H. cbn [fst] in *. lia.
    - apply IH. destruct (snd (skip_comma f1)) eqn:S; [|rewrite Gf in H; lia]. apply skip_comma_good in S. destruct f1 as [s1 g1]. cbn [snd] in S. subst g1. destruct f0 as [s0 g0]. destruct g0; [|unfold get_int in E; injection E as _ _ E; discriminate]. apply get_int_shrinks in E. rewrite Gf in H. cbn [fst] in *. lia. }
  destruct f as [[|c r] [|]].
  - apply B; [cbn; lia|reflexivity|discriminate].
  - lia.
  - destruct (is_char close_brace c); [lia|]. apply B; [lia|reflexivity|auto].
  - lia.
Qed.
Lemma get_char_some f c f1 : get_char f = Some (c, f1) -> snd f = true /\ snd f1 = true /\ (length (fst f) = S (length (fst f1)))%nat.
Proof. destruct f as [[|x r] [|]]; cbn; intros E; try discriminate. injection E as _ <-. auto. Qed.
Lemma read_simplices_ends u rays : forall fuel (f : stream), (length (fst f) < fuel)%nat ->
  match read_simplices fuel u rays f with
  | Ok (l, f') => l <> [] /\ snd f' = true /\ (length (fst f') < length (fst f))%nat
  | Err e => e = OutOfBounds \/ e = Exited
  end.
Proof.
  induction fuel as [|k IH]; intros f H; [lia|]. cbn [read_simplices]. destruct (get_char f) as [[c f1]|] eqn:E1; [|auto]. apply get_char_some in E1 as (_ & G1 & L1). destruct (negb (is_char open_brace c)); [auto|].
  pose proof (read_simplex_ends u rays (S (S (length (fst f1)))) [] f1) as RS. rewrite G1 in RS. specialize (RS ltac:(lia)). destruct (read_simplex _ u rays [] f1) as [[simp f2]|e]; cbn [bind]; [|now left].
  destruct (get_char f2) as [[c2 f3]|] eqn:E2; [|auto]. apply get_char_some in E2 as (_ & G3 & L3). destruct (get_char f3) as [[c4 f4]|] eqn:E4; [|auto]. apply get_char_some in E4 as (_ & G4 & L4).
  destruct (is_char close_brace c4); [split; [discriminate|]; split; [exact G4|lia]|]. destruct (is_char comma c4); [|auto].
  specialize (IH f4 ltac:(lia)). destruct (read_simplices k u rays f4) as [[l f5]|e]; cbn [bind]; [|exact IH]. destruct IH as (A & B & C). split; [discriminate|]. split; [exact B|lia].
Qed.
Lemma find_brace_length s r : find_brace s = Some r -> (length r < length s)%nat.
Proof. induction s as [|c s IH]; cbn [find_brace]; [discriminate|]. destruct (is_char open_brace c); intros E; [injection E as <-; cbn; lia|]. specialize (IH E). cbn. lia. Qed.
Lemma read_triangulation_ends u rays s : match read_triangulation u rays s with
  | Ok (l, f') => l <> [] /\ snd f' = true /\ (length (fst f') < length s)%nat
  | Err e => e = OutOfBounds \/ e = Exited
  end.
Proof.
  unfold read_triangulation. destruct (find_brace s) as [r|] eqn:E; [|auto]. apply find_brace_length in E. pose proof (read_simplices_ends u rays (S (length r)) (r, true)) as H. cbn [fst] in H. specialize (H ltac:(lia)). destruct (read_simplices _ u rays (r, true)) as [[l f']|e]; [|exact H]. destruct H as (A & B & C). split; [exact A|]. split; [exact B|lia].
Qed.
Lemma read_all_fails u rays : forall fuel s acc, (length s < fuel)%nat -> exists e, read_all fuel u rays (s, true) acc = Err e /\ (e = OutOfBounds \/ e = Exited).
Proof.
  induction fuel as [|k IH]; intros s acc H; [lia|]. cbn [read_all snd fst]. pose proof (read_triangulation_ends u rays s) as R. destruct (read_triangulation u rays s) as [[t [s1 g1]]|e]; cbn [bind]; [|eauto].
  destruct R as (A & B & C). cbn [snd fst] in B, C. subst g1. destruct t as [|x t]; [now destruct A|]. apply IH. lia.
Qed.

(** ** Reading what TOPCOM prints *)
Lemma find_brace_skip before r : ~ In "{"%char before -> find_brace (before ++ "{"%char :: r) = Some r.
Proof.
  induction before as [|c b IH]; intros H; cbn [app find_brace]; [reflexivity|]. unfold is_char. destruct (Ascii.eqb_spec open_brace c) as [E|_]; [exfalso; apply H; left; symmetry; exact E|]. apply IH. intros X. apply H. now right.
Qed.
Lemma show_Z_head z : exists c s, show_Z z = c :: s /\ (is_digit c = true \/ c = "-"%char).
Proof.
  destruct z as [|p|p]; [exists "0"%char, []; split; [reflexivity|left; reflexivity]| |].
  - unfold show_Z. cbn [Z.to_int]. destruct (Pos.to_uint p) as [|u|u|u|u|u|u|u|u|u|u] eqn:E; [exfalso; pose proof (DecimalPos.Unsigned.of_to p) as X; rewrite E in X; discriminate|..]; cbn [digit_chars]; do 2 eexists; (split; [reflexivity|left; reflexivity]).
  - unfold show_Z. cbn [Z.to_int]. do 2 eexists. split; [reflexivity|]. now right.
Qed.
Lemma get_int_show u z c r : nondigit (c :: r) = true -> int_range z = true -> get_int u ((show_Z z ++ c :: r)%list, true) = (z, (c :: r, true)).
Proof.
  intros D R. unfold get_int. rewrite skip_show_Z. destruct (show_Z_head z) as (c0 & s0 & E & _). rewrite E. cbn [app]. change (c0 :: (s0 ++ c :: r)%list) with ((c0 :: s0) ++ c :: r)%list. rewrite <- E, (read_signed_show z (c :: r) D), R. reflexivity.
Qed.
Lemma not_brace z r : exists c s, (show_Z z ++ r)%list = c :: s /\ is_char close_brace c = false.
Proof.
  destruct (show_Z_head z) as (c & s & E & H). rewrite E. cbn [app]. exists c, (s ++ r)%list. split; [reflexivity|]. unfold is_char. destruct (Ascii.eqb_spec close_brace c) as [X|_]; [|reflexivity]. subst c. destruct H as [H|H]; discriminate.
Qed.
Section Read.
Context (u : Z) (rays : list (list Z)) (Small : Z.of_nat (length rays) <= 2147483648).
Lemma ray_at_ok i : (i < length rays)%nat -> ray_at rays (Z.of_nat i) = Ok (nth i rays []).
Proof. intros H. unfold ray_at. rewrite (proj2 (Z.leb_le 0 (Z.of_nat i))), (proj2 (Z.ltb_lt (Z.of_nat i) (Z.of_nat (length rays)))) by lia. cbn [andb]. now rewrite Nat2Z.id. Qed.
Lemma int_ok i : (i < length rays)%nat -> int_range (Z.of_nat i) = true.
Proof. intros H. unfold int_range. rewrite andb_true_iff, !Z.leb_le. lia. Qed.
Lemma read_simplex_ok : forall s fuel acc r, Forall (fun i => (i < length rays)%nat) s -> (length s < fuel)%nat ->
  read_simplex fuel u rays acc ((joined (map (fun i => show_Z (Z.of_nat i)) s) ++ "}"%char :: r)%list, true) = Ok ((rev (picked rays s) ++ acc)%list, ("}"%char :: r, true)).
Proof.
  induction s as [|i s IH]; intros fuel acc r F H; (destruct fuel as [|k]; [cbn in H; lia|]).
  - reflexivity.
  - inversion F as [|i' s' Fi Fs]; subst. cbn [map]. cbn [length] in H.
    assert (E : exists t c0, (joined (show_Z (Z.of_nat i) :: map (fun i => show_Z (Z.of_nat i)) s) ++ "}"%char :: r)%list = (show_Z (Z.of_nat i) ++ c0 :: t)%list /\ nondigit (c0 :: t) = true /\
      skip_comma (c0 :: t, true) = ((joined (map (fun i => show_Z (Z.of_nat i)) s) ++ "}"%char :: r)%list, true)).
    { destruct s as [|j s]; [exists r, "}"%char; cbn [map joined app]; split; [reflexivity|split; reflexivity]|]. exists (joined (map (fun i => show_Z (Z.of_nat i)) (j :: s)) ++ "}"%char :: r)%list, ","%char. split; [|split; reflexivity]. cbn [map joined]. rewrite <- app_assoc. f_equal. }
    destruct E as (t & c0 & E & D & SC). rewrite E. cbn [read_simplex]. destruct (not_brace (Z.of_nat i) (c0 :: t)) as (c & w & EW & NB). rewrite EW. rewrite NB. rewrite <- EW, (get_int_show u (Z.of_nat i) c0 t D (int_ok i Fi)), (ray_at_ok i Fi). cbn [bind]. rewrite SC.
    rewrite (IH k _ r Fs ltac:(lia)). f_equal. f_equal. unfold picked. cbn [map rev]. rewrite <- app_assoc. reflexivity.
Qed.
Lemma joined_length (A : Type) (f : A -> text) l : (forall a, (0 < length (f a))%nat) -> (length l <= length (joined (map f l)))%nat.
Proof.
  intros Hf. induction l as [|a l IH]; [cbn; lia|]. destruct l as [|b l]; [cbn [map joined length]; specialize (Hf a); lia|].
  change (joined (map f (a :: b :: l))) with (f a ++ lit "," ++ joined (map f (b :: l)))%list. rewrite !app_length. specialize (Hf a). cbn [length] in *. lia.
Qed.
Lemma show_Z_pos z : (0 < length (show_Z z))%nat.
Proof. destruct (show_Z_head z) as (c & s & E & _). rewrite E. cbn. lia. Qed.
Lemma read_simplices_ok : forall T fuel r, T <> [] -> Forall (Forall (fun i => (i < length rays)%nat)) T -> (length T <= fuel)%nat ->
  read_simplices fuel u rays ((joined (map simplex_text T) ++ "}"%char :: r)%list, true) = Ok (map (fun s => rev (picked rays s)) T, (r, true)).
Proof.
  induction T as [|s T IH]; intros fuel r N F H; [now destruct N|]. destruct fuel as [|k]; [cbn in H; lia|]. inversion F as [|s' T' Fs FT]; subst.
  assert (E : exists c t, (joined (map simplex_text (s :: T)) ++ "}"%char :: r)%list = ("{"%char :: joined (map (fun i => show_Z (Z.of_nat i)) s) ++ "}"%char :: c :: t)%list /\
    (T = [] /\ c = "}"%char /\ t = r \/ T <> [] /\ c = ","%char /\ t = (joined (map simplex_text T) ++ "}"%char :: r)%list)).
  { destruct T as [|s2 T].
    - exists "}"%char, r. split; [|now left]. cbn [map joined]. unfold simplex_text. rewrite <- !app_assoc. reflexivity.
    - exists ","%char, (joined (map simplex_text (s2 :: T)) ++ "}"%char :: r)%list. split; [|right; split; [discriminate|auto]]. change (joined (map simplex_text (s :: s2 :: T))) with (simplex_text s ++ lit "," ++ joined (map simplex_text (s2 :: T)))%list. unfold simplex_text at 1. rewrite <- !app_assoc. reflexivity. }
  destruct E as (c & t & E & CASE). rewrite E. cbn [read_simplices get_char]. change (is_char open_brace "{") with true. cbn [negb fst].
  rewrite (read_simplex_ok s _ [] (c :: t) Fs).
  2:{ pose proof (joined_length nat (fun i => show_Z (Z.of_nat i)) s (fun i => show_Z_pos _)) as L. rewrite app_length. cbn [length]. lia. }
  cbn [bind get_char]. rewrite app_nil_r. destruct CASE as [(-> & -> & ->)|(NT & -> & ->)].
  - reflexivity.
  - change (is_char close_brace ",") with false. change (is_char comma ",") with true. cbv iota. rewrite (IH k r NT FT ltac:(cbn in H; lia)). reflexivity.
Qed.
Lemma read_triangulation_ok before T after : ~ In "{"%char before -> T <> [] -> Forall (Forall (fun i => (i < length rays)%nat)) T ->
  read_triangulation u rays (before ++ triangulation_text T ++ after)%list = Ok (map (fun s => rev (picked rays s)) T, (after, true)).
Proof.
  intros NB NT F. unfold read_triangulation, triangulation_text. cbn [lit list_ascii_of_string app]. rewrite (find_brace_skip before _ NB). rewrite <- app_assoc. cbn [app].
  apply read_simplices_ok; auto. pose proof (joined_length (list nat) simplex_text T) as L. rewrite app_length. assert (X : forall a, (0 < length (simplex_text a))%nat) by (intros a; unfold simplex_text; cbn; lia). specialize (L X). lia.
Qed.
End Read.

(** ** The points written *)
Definition solid (t : text) : text := filter (fun c => negb (is_space c)) t.
Lemma solid_app a b : solid (a ++ b) = (solid a ++ solid b)%list.
Proof. unfold solid. induction a as [|c a IH]; cbn [app filter]; [reflexivity|]. destruct (negb (is_space c)); cbn [app]; now rewrite IH. Qed.
Lemma solid_digits x : solid (digit_chars x) = digit_chars x.
Proof. unfold solid. induction x; cbn [digit_chars filter]; [reflexivity|..]; (rewrite IHx; reflexivity). Qed.
Lemma solid_show z : solid (show_Z z) = show_Z z.
Proof. destruct z as [|p|p]; [reflexivity|exact (solid_digits _)|]. unfold show_Z. cbn [Z.to_int]. unfold solid. cbn [filter]. change (negb (is_space "-")) with true. cbv iota. f_equal. apply solid_digits. Qed.
Lemma joined_cons a b l : joined (a :: b :: l) = (a ++ lit "," ++ joined (b :: l))%list.
Proof. reflexivity. Qed.
Lemma tail_text : forall v x, (show_Z x ++ flat_map (fun y => ","%char :: show_Z y) v)%list = joined (map show_Z (x :: v)).
Proof.
  induction v as [|y v IH]; intros x; cbn [flat_map map]; [now rewrite app_nil_r|]. rewrite joined_cons. f_equal. cbn [lit list_ascii_of_string app]. f_equal. apply IH.
Qed.
Lemma solid_flat v : solid (flat_map (fun y => lit ", " ++ show_Z y)%list v) = flat_map (fun y => ","%char :: show_Z y) v.
Proof.
  induction v as [|y v IH]; [reflexivity|]. cbn [flat_map]. rewrite !solid_app, IH, solid_show. reflexivity.
Qed.
Lemma solid_point v : solid (write_point v) = point_text v.
Proof.
  destruct v as [|x v]; [reflexivity|]. unfold write_point, point_text. rewrite !solid_app, solid_show, solid_flat. rewrite <- tail_text. rewrite <- app_assoc. reflexivity.
Qed.
Lemma solid_points : forall V, solid (write_points V) = joined (map point_text V).
Proof.
  induction V as [|v V IH]; [reflexivity|]. destruct V as [|w V]; [apply solid_point|]. change (write_points (v :: w :: V)) with (write_point v ++ lit "," ++ [newline] ++ write_points (w :: V))%list. rewrite !solid_app, solid_point, IH. reflexivity.
Qed.
Lemma configuration_ok V : denotes_points (write_configuration V) V.
Proof. unfold denotes_points, write_configuration. change (filter (fun c => negb (is_space c))) with solid. rewrite !solid_app, solid_points. reflexivity. Qed.

(** ** The order of the rays of a simplicial cone does not matter *)
Open Scope Q_scope.
Lemma sumq_reverse n f : sumq n f == sumq n (fun k => f (n - 1 - k)%nat).
Proof.
  induction n as [|n IH]; [reflexivity|]. assert (FR : forall m g, sumq (S m) g == g 0%nat + sumq m (fun k => g (S k))).
  { intros m g. change (S m) with (1 + m)%nat. rewrite sumq_split. assert (E : sumq 1 g == g 0%nat) by (cbn [sumq]; ring). rewrite E. reflexivity. }
  rewrite (FR n (fun k => f (S n - 1 - k)%nat)). cbn [sumq]. rewrite IH. replace (S n - 1 - 0)%nat with n by lia. rewrite (sumq_ext n (fun k => f (n - 1 - k)%nat) (fun k => f (S n - 1 - S k)%nat)); [ring|]. intros k Hk. replace (S n - 1 - S k)%nat with (n - 1 - k)%nat by lia. reflexivity.
Qed.
Lemma sumz_reverse n (f : nat -> Z) : sumz n f = sumz n (fun k => f (n - 1 - k)%nat).
Proof.
  assert (H := sumq_reverse n (fun k => inject_Z (f k))). assert (E : forall g, inject_Z (sumz n g) == sumq n (fun k => inject_Z (g k))).
  { intros g. induction n as [|m IH]; [reflexivity|]. assert (X : forall l, inject_Z (sumz l g) == sumq l (fun k => inject_Z (g k))) by (induction l as [|l IHl]; [reflexivity|]; cbn [sumz sumq]; rewrite inject_Z_plus, IHl; reflexivity). apply X. }
  rewrite <- (E f), <- (E (fun k => f (n - 1 - k)%nat)) in H. unfold Qeq in H. cbn in H. lia.
Qed.
Lemma vat_rev n (T : list (list Z)) k i : length T = n -> (k < n)%nat -> vat (rev T) k i = vat T (n - 1 - k) i.
Proof. intros L H. unfold vat. rewrite rev_nth by lia. rewrite L. replace (n - S k)%nat with (n - 1 - k)%nat by lia. reflexivity. Qed.
Lemma combination_rev n T a x : length T = n -> combination n T a x -> combination n (rev T) (fun k => a (n - 1 - k)%nat) x.
Proof.
  intros L H i Hi. rewrite (H i Hi). rewrite (sumq_reverse n (fun k => a k * inject_Z (vat T k i))). apply sumq_ext. intros k Hk. rewrite (vat_rev n T k i L Hk). reflexivity.
Qed.
Lemma in_cone_rev1 n v T x : length T = n -> in_cone n v T x -> in_cone n v (rev T) x.
Proof. intros L (a & P & C). exists (fun k => a (n - 1 - k)%nat). split; [intros k Hk; apply P; lia|now apply combination_rev]. Qed.
Lemma in_open_cone_rev1 n v T x : length T = n -> in_open_cone n v T x -> in_open_cone n v (rev T) x.
Proof. intros L (a & P & C). exists (fun k => a (n - 1 - k)%nat). split; [intros k Hk; apply P; lia|now apply combination_rev]. Qed.
Lemma rev_both (P : list (list Z) -> Prop) n T : length T = n -> (forall S, length S = n -> P S -> P (rev S)) -> P (rev T) <-> P T.
Proof. intros L H. split; intros X; [rewrite <- (rev_involutive T); apply H; [now rewrite rev_length|exact X]|now apply H]. Qed.
Lemma vectors_rev n T : n_vectors n T -> n_vectors n (rev T).
Proof. intros [L F]. split; [now rewrite rev_length|]. rewrite Forall_forall in *. intros r Hr. apply F. now apply in_rev. Qed.
Lemma indep_rev n T : length T = n -> lin_indep n T -> lin_indep n (rev T).
Proof.
  intros L LI a H k Hk. assert (X : a (n - 1 - (n - 1 - k))%nat = 0%Z); [|replace (n - 1 - (n - 1 - k))%nat with k in X by lia; exact X].
  apply (LI (fun j => a (n - 1 - j)%nat)); [|lia]. intros i Hi. rewrite <- (H i Hi). rewrite (sumz_reverse n (fun j => a j * vat (rev T) j i)%Z). rewrite !sumz_zsum. apply zsum_ext. intros j Hj. rewrite (vat_rev n T (n - 1 - j) i L) by lia. replace (n - 1 - (n - 1 - j))%nat with j by lia. reflexivity.
Qed.
Lemma triangulates_rev n V Ts : triangulates n V Ts -> triangulates n V (map (@rev (list Z)) Ts).
Proof.
  intros (A & B & C). assert (LT : forall T, In T Ts -> length T = n) by (intros T HT; destruct (A T HT) as [[L _] _]; exact L). split; [|split].
  - intros T HT. apply in_map_iff in HT as (T0 & <- & HT). destruct (A T0 HT) as [NV LI]. split; [now apply vectors_rev|apply indep_rev; auto].
  - intros x. rewrite (B x). split.
    + intros (T & HT & H). exists (rev T). split; [now apply in_map|]. apply in_cone_rev1; auto.
    + intros (T & HT & H). apply in_map_iff in HT as (T0 & <- & HT). exists T0. split; [exact HT|]. apply (rev_both (fun T => in_cone n origin T x) n T0 (LT T0 HT)); [intros; now apply in_cone_rev1|exact H].
  - intros i j x Hij Hj (H1 & H2). rewrite map_length in Hj. change (@nil (list Z)) with (rev (@nil (list Z))) in H1, H2. rewrite !map_nth in H1, H2.
    apply (C i j x Hij Hj). split; (eapply (rev_both (fun T => in_open_cone n origin T x)); [apply LT, nth_In; lia|intros; now apply in_open_cone_rev1|assumption]).
Qed.
