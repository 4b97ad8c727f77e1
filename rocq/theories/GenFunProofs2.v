(** Reading back printed rational functions: the values of the texts written. *)
From Coq Require Import String QArith Qfield Lqa Ascii.
From Verif Require Import Common Rational Text TextProofs GenFunSpec GenFunProofs Piped PipedProofs GenFun.
Open Scope Z_scope.

Definition val (x : nat -> Q) (e : mexpr) (q : Q) : Prop := exists q', mvalue x e = Some q' /\ (q' == q)%Q.
Lemma val_ext x e p q : (p == q)%Q -> val x e p -> val x e q.
Proof. intros E (q' & M & H). exists q'. split; [exact M|]. now rewrite H. Qed.
Lemma val_int x z : val x (MInt z) (inject_Z z).
Proof. exists (inject_Z z). split; reflexivity. Qed.
Lemma val_neg_int x z : val x (MNeg (MInt z)) (inject_Z (- z)).
Proof. exists (inject_Z (- z)). split; reflexivity. Qed.
Lemma val_var x i : val x (MVar i) (x i).
Proof. exists (x i). split; reflexivity. Qed.
Lemma val_add x a b p q : val x a p -> val x b q -> val x (MAdd a b) (p + q)%Q.
Proof. intros (p' & M1 & E1) (q' & M2 & E2). exists (p' + q')%Q. cbn [mvalue]. rewrite M1, M2. split; [reflexivity|]. now rewrite E1, E2. Qed.
Lemma val_sub x a b p q : val x a p -> val x b q -> val x (MSub a b) (p - q)%Q.
Proof. intros (p' & M1 & E1) (q' & M2 & E2). exists (p' - q')%Q. cbn [mvalue]. rewrite M1, M2. split; [reflexivity|]. now rewrite E1, E2. Qed.
Lemma val_mul x a b p q : val x a p -> val x b q -> val x (MMul a b) (p * q)%Q.
Proof. intros (p' & M1 & E1) (q' & M2 & E2). exists (p' * q')%Q. cbn [mvalue]. rewrite M1, M2. split; [reflexivity|]. now rewrite E1, E2. Qed.
Lemma val_div x a b p q : ~ (q == 0)%Q -> val x a p -> val x b q -> val x (MDiv a b) (p / q)%Q.
Proof.
  intros N (p' & M1 & E1) (q' & M2 & E2). exists (p' / q')%Q. cbn [mvalue]. rewrite M1, M2. cbn [both]. destruct (Qeq_bool q' 0) eqn:Z0; [apply Qeq_bool_iff in Z0; exfalso; apply N; now rewrite <- E2|]. split; [reflexivity|]. now rewrite E1, E2.
Qed.
Lemma val_pow x i k e : mvalue x e = Some (inject_Z k) -> ~ (x i == 0)%Q -> val x (MPow (MVar i) e) (x i ^ k)%Q.
Proof.
  intros M N. exists (x i ^ k)%Q. cbn [mvalue]. rewrite M. cbn [both]. assert (R : Qred (inject_Z k) = inject_Z k).
  { unfold inject_Z, Qred. pose proof (Z.ggcd_gcd k 1) as G1. pose proof (Z.ggcd_correct_divisors k 1) as G2. destruct (Z.ggcd k 1) as [g [a b]]. cbn [fst] in G1. rewrite Z.gcd_1_r in G1. subst g. destruct G2 as [-> G2]. assert (b = 1) by lia. subst b. cbn [snd]. now rewrite Z.mul_1_l. }
  rewrite R. cbn [Qden Qnum inject_Z Pos.eqb negb orb]. destruct (Qeq_bool (x i) 0) eqn:Z0; [apply Qeq_bool_iff in Z0; contradiction|]. cbn [andb]. split; reflexivity.
Qed.

(** A text that is a product, open at its end: it can be extended. *)
Definition chainP (t : chars) (D : (nat -> Q) -> Prop) (q : (nat -> Q) -> Q) : Prop :=
  exists t1 t2 a q1 q2, t = (t1 ++ t2)%list /\ no_minus t1 /\ powP t1 a /\ (forall x, D x -> val x a (q1 x)) /\
  (forall acc, exists e, facP t2 acc e /\ forall x p, D x -> val x acc p -> val x e (p * q2 x)%Q) /\ forall x, D x -> (q1 x * q2 x == q x)%Q.
Lemma chain_pow t a (D : (nat -> Q) -> Prop) q : no_minus t -> powP t a -> (forall x, D x -> val x a (q x)) -> chainP t D q.
Proof.
  intros N H V. exists t, [], a, q, (fun _ => 1%Q). split; [now rewrite app_nil_r|]. split; [exact N|]. split; [exact H|]. split; [exact V|]. split; [|intros; ring]. intros acc. exists acc. split; [apply fac_nil|]. intros x p _ Hp. revert Hp. apply val_ext. ring.
Qed.
Lemma chain_prod t D q : chainP t D q -> no_minus t /\ exists e, prodP t e /\ forall x, D x -> val x e (q x).
Proof.
  intros (t1 & t2 & a & q1 & q2 & -> & N & H1 & V1 & H2 & E). split; [destruct t1; [destruct N|exact N]|]. destruct (H2 a) as (e & F & V2). exists e. split; [exact (prod_of _ _ _ _ H1 F)|]. intros x Dx. apply (val_ext _ _ _ _ (E x Dx)). apply V2; auto.
Qed.
Lemma chain_mul c a qc t (D : (nat -> Q) -> Prop) q : no_minus c -> powP c a -> (forall x, D x -> val x a (qc x)) -> chainP t D q -> chainP (c ++ lit "*" ++ t) D (fun x => qc x * q x)%Q.
Proof.
  intros N Hc Vc (t1 & t2 & b & q1 & q2 & -> & N1 & H1 & V1 & H2 & E). exists c, (lit "*" ++ t1 ++ t2)%list, a, qc, q. split; [reflexivity|]. split; [exact N|]. split; [exact Hc|]. split; [exact Vc|]. split; [|intros; reflexivity].
  intros acc. destruct (H2 (MMul acc b)) as (e & F & V2). exists e. split.
  - rewrite app_assoc. exact (fac_app _ _ _ _ _ (fac_mul t1 acc b H1) F).
  - intros x p Dx Hp. apply (val_ext x e (p * q1 x * q2 x)%Q); [rewrite <- (E x Dx); ring|]. apply V2; [exact Dx|]. apply val_mul; auto.
Qed.
Lemma chain_div t (D : (nat -> Q) -> Prop) q s b qb : chainP t D q -> powP s b -> (forall x, D x -> val x b (qb x) /\ ~ (qb x == 0)%Q) -> chainP (t ++ lit "/" ++ s) D (fun x => q x / qb x)%Q.
Proof.
  intros (t1 & t2 & a & q1 & q2 & -> & N1 & H1 & V1 & H2 & E) Hs Vs. exists t1, (t2 ++ lit "/" ++ s)%list, a, q1, (fun x => q2 x / qb x)%Q. split; [now rewrite <- app_assoc|]. split; [exact N1|]. split; [exact H1|]. split; [exact V1|]. split.
  - intros acc. destruct (H2 acc) as (e & F & V2). exists (MDiv e b). split; [exact (fac_app _ _ _ _ _ F (fac_div s e b Hs))|]. intros x p Dx Hp. destruct (Vs x Dx) as [Vb Nb]. apply (val_ext x _ (p * q2 x / qb x)%Q); [field; exact Nb|]. apply val_div; auto.
  - intros x Dx. destruct (Vs x Dx) as [_ Nb]. rewrite <- (E x Dx). field. exact Nb.
Qed.
Lemma chain_ext t (D D' : (nat -> Q) -> Prop) q q' : (forall x, D' x -> D x) -> (forall x, D' x -> (q x == q' x)%Q) -> chainP t D q -> chainP t D' q'.
Proof.
  intros HD HE (t1 & t2 & a & q1 & q2 & -> & N1 & H1 & V1 & H2 & E). exists t1, t2, a, q1, q2. split; [reflexivity|]. split; [exact N1|]. split; [exact H1|]. split; [auto|]. split; [|intros x Dx; rewrite (E x (HD x Dx)); auto].
  intros acc. destruct (H2 acc) as (e & F & V2). exists e. split; [exact F|]. intros x p Dx. apply V2. auto.
Qed.

(** One power, and a monomial. *)
Definition from (i : nat) (x : nat -> Q) : nat -> Q := fun k => x (i + k)%nat.
Definition nonzero_at (i n : nat) (x : nat -> Q) : Prop := forall k, (i <= k < i + n)%nat -> ~ (x k == 0)%Q.
Lemma lit_app s1 s2 : lit (s1 ++ s2) = (lit s1 ++ lit s2)%list.
Proof. unfold lit. induction s1 as [|c s1 IH]; [reflexivity|]. cbn [String.append list_ascii_of_string app]. now rewrite IH. Qed.
Lemma var_no_minus i s : no_minus (lit "x[" ++ show_Z (Z.of_nat i) ++ s).
Proof. split; [reflexivity|discriminate]. Qed.
Lemma write_power_ok i e : e <> 0 -> no_minus (write_power i e) /\ exists a, powP (write_power i e) a /\ forall x, ~ (x i == 0)%Q -> val x a (x i ^ e)%Q.
Proof.
  intros N. unfold write_power. destruct (Z.ltb_spec e 0) as [L|L]; [|destruct (Z.eqb_spec e 1) as [->|N1]].
  - split; [apply var_no_minus|]. exists (MPow (MVar i) (MNeg (MInt (- e)))). split.
    + change (lit "]^(") with (lit "]" ++ lit "^" ++ lit "(")%list. rewrite <- !app_assoc. rewrite (app_assoc (show_Z _) (lit "]")), (app_assoc (lit "x[")).
      apply pow_pow; [apply atom_var|]. apply atom_paren. rewrite (show_neg e L). apply (sum_neg (show_Z (- e))). apply prod_pow, pow_atom, atom_num. lia.
    + intros x NX. apply val_pow; [|exact NX]. cbn [mvalue option_map]. f_equal. rewrite <- inject_Z_opp. f_equal. lia.
  - split; [apply var_no_minus|]. exists (MVar i). split; [apply pow_atom, atom_var|]. intros x NX. apply (val_ext _ _ (x i)); [|apply val_var]. cbn. reflexivity.
  - split; [apply var_no_minus|]. exists (MPow (MVar i) (MInt e)). split.
    + change (lit "]^") with (lit "]" ++ lit "^")%list. rewrite <- !app_assoc. rewrite (app_assoc (show_Z _) (lit "]")), (app_assoc (lit "x[")). apply pow_pow; [apply atom_var|]. apply atom_num. lia.
    + intros x NX. apply val_pow; [reflexivity|exact NX].
Qed.
Lemma monomial_ext v : forall x y, (forall k, (k < length v)%nat -> (x k == y k)%Q) -> (monomial x v == monomial y v)%Q.
Proof. induction v as [|e v IH]; intros x y H; cbn [monomial]; [reflexivity|]. rewrite (H 0%nat) by (cbn; lia). rewrite (IH (fun k => x (S k)) (fun k => y (S k))); [reflexivity|]. intros k Hk. apply H. cbn. lia. Qed.
Lemma monomial_from i x e v : (monomial (from i x) (e :: v) == x i ^ e * monomial (from (S i) x) v)%Q.
Proof. cbn [monomial]. unfold from at 1. rewrite Nat.add_0_r. rewrite (monomial_ext v (fun k => from i x (S k)) (from (S i) x)); [reflexivity|]. intros k _. unfold from. replace (i + S k)%nat with (S i + k)%nat by lia. reflexivity. Qed.
Lemma nonzero_tail i n x : nonzero_at i (S n) x -> nonzero_at (S i) n x.
Proof. intros H k Hk. apply H. lia. Qed.
Lemma write_powers_more v : forall i acc, exists e, facP (write_powers i v false) acc e /\ forall x p, nonzero_at i (length v) x -> val x acc p -> val x e (p * monomial (from i x) v)%Q.
Proof.
  induction v as [|z v IH]; intros i acc; cbn [write_powers].
  - exists acc. split; [apply fac_nil|]. intros x p _ Hp. revert Hp. apply val_ext. cbn [monomial]. ring.
  - destruct (Z.eqb_spec z 0) as [->|N].
    + destruct (IH (S i) acc) as (e & F & V). exists e. split; [exact F|]. intros x p NX Hp. apply (val_ext _ _ (p * monomial (from (S i) x) v)%Q); [rewrite monomial_from; cbn [Qpower]; ring|]. apply V; [now apply nonzero_tail|exact Hp].
    + destruct (write_power_ok i z N) as (_ & a & Ha & Va). destruct (IH (S i) (MMul acc a)) as (e & F & V). exists e. split; [rewrite app_assoc; exact (fac_app _ _ _ _ _ (fac_mul _ acc a Ha) F)|].
      intros x p NX Hp. apply (val_ext _ _ (p * x i ^ z * monomial (from (S i) x) v)%Q); [rewrite monomial_from; ring|]. apply V; [now apply nonzero_tail|]. apply val_mul; [exact Hp|]. apply Va, NX. cbn [length]. lia.
Qed.
Lemma write_powers_ok v : forall i, chainP (write_powers i v true) (nonzero_at i (length v)) (fun x => monomial (from i x) v).
Proof.
  induction v as [|z v IH]; intros i; cbn [write_powers].
  - apply (chain_pow _ (MInt 1)); [split; [reflexivity|discriminate]| |intros x _; exact (val_int x 1)]. apply pow_atom. exact (atom_num 1 ltac:(lia)).
  - destruct (Z.eqb_spec z 0) as [->|N].
    + refine (chain_ext _ _ _ _ _ _ _ (IH (S i))); [intros x; apply nonzero_tail|]. intros x _. rewrite monomial_from. cbn [Qpower]. ring.
    + destruct (write_power_ok i z N) as (NM & a & Ha & Va). cbn [app]. exists (write_power i z), (write_powers (S i) v false), a, (fun x => x i ^ z)%Q, (fun x => monomial (from (S i) x) v). split; [reflexivity|]. split; [exact NM|]. split; [exact Ha|].
      split; [intros x NX; apply Va, NX; cbn [length]; lia|]. split; [|intros x _; rewrite monomial_from; reflexivity]. intros acc. destruct (write_powers_more v (S i) acc) as (e & F & V). exists e. split; [exact F|]. intros x p NX. apply V. now apply nonzero_tail.
Qed.
Lemma from_0 x v : (monomial (from 0 x) v == monomial x v)%Q.
Proof. apply monomial_ext. reflexivity. Qed.
Definition defined_at (n : nat) (x : nat -> Q) : Prop := forall k, (k < n)%nat -> ~ (x k == 0)%Q.
Lemma write_term_ok v n : length v = n -> exists t, write_term v n = Ok t /\ chainP t (defined_at n) (fun x => monomial x v).
Proof.
  intros L. unfold write_term. rewrite L, Nat.ltb_irrefl. eexists. split; [reflexivity|]. rewrite <- L, firstn_all. refine (chain_ext _ _ _ _ _ _ _ (write_powers_ok v 0)).
  - intros x H k Hk. apply H. lia.
  - intros x _. apply from_0.
Qed.
Lemma write_terms_ok n ps : Forall (fun p => length p = n) ps -> exists ts, mapM (fun p => write_term p n) ps = Ok ts /\ Forall2 (fun p t => chainP t (defined_at n) (fun x => monomial x p)) ps ts.
Proof.
  induction 1 as [|p ps L F IH]; [exists []; split; [reflexivity|constructor]|]. destruct (write_term_ok p n L) as (t & E & C). destruct IH as (ts & ET & CT). exists (t :: ts). cbn [mapM]. rewrite E. cbn [bind]. rewrite ET. split; [reflexivity|]. now constructor.
Qed.

(** Separated lists. *)
Lemma separated_cons sep t l : separated sep (t :: l) = (t ++ concat (map (fun u => sep ++ u) l))%list.
Proof. revert t. induction l as [|u l IH]; intros t; [cbn; now rewrite app_nil_r|]. change (separated sep (t :: u :: l)) with (t ++ sep ++ separated sep (u :: l))%list. rewrite IH. cbn [map concat]. now rewrite <- app_assoc. Qed.
Lemma sum_more n ps ts : Forall2 (fun p t => chainP t (defined_at n) (fun x => monomial x p)) ps ts -> forall acc, exists e, termsP (concat (map (fun u => lit "+" ++ u) ts)) acc e /\ forall x p, defined_at n x -> val x acc p -> val x e (p + point_sum x ps)%Q.
Proof.
  induction 1 as [|p t ps ts C F IH]; intros acc; cbn [map concat].
  - exists acc. split; [apply terms_nil|]. intros x p _. apply val_ext. cbn. ring.
  - destruct (chain_prod _ _ _ C) as (_ & a & Ha & Va). destruct (IH (MAdd acc a)) as (e & T & V). exists e. split.
    + apply terms_app with (b := MAdd acc a); [|exact T]. exact (terms_add [] [] t acc a (Forall_nil _) (Forall_nil _) Ha).
    + intros x q Dx Hq. cbn [point_sum fold_right]. fold (point_sum x ps). apply (val_ext _ _ (q + monomial x p + point_sum x ps)%Q); [ring|]. apply V; [exact Dx|]. apply val_add; auto.
Qed.
Lemma write_points_ok n ps : ps <> [] -> Forall (fun p => length p = n) ps -> exists ts, mapM (fun p => write_term p n) ps = Ok ts /\
  chainP (if (1 <? length ps)%nat then lit "(" ++ separated (lit "+") ts ++ lit ")" else separated (lit "+") ts) (defined_at n) (fun x => point_sum x ps).
Proof.
  intros NE F. destruct (write_terms_ok n ps F) as (ts & E & C). exists ts. split; [exact E|]. destruct C as [|p t ps ts C CT]; [congruence|]. destruct ps as [|p2 ps].
  - inversion CT; subst. cbn [length Nat.ltb Nat.leb]. cbn [separated]. revert C. apply chain_ext; [auto|]. intros x _. cbn. ring.
  - cbn [length]. change (1 <? S (S (length ps)))%nat with true. cbv iota. rewrite separated_cons. destruct (chain_prod _ _ _ C) as (NM & a & Ha & Va). destruct (sum_more n (p2 :: ps) ts CT a) as (e & T & V). apply (chain_pow _ e); [split; [reflexivity|discriminate]| |].
    + apply pow_atom, atom_paren. exact (sum_of _ _ _ _ NM Ha T).
    + intros x Dx. apply V; [exact Dx|]. now apply Va.
Qed.
(** The denominator. *)
Definition ray_product (x : nat -> Q) (rays : list (list Z)) : Q := fold_right (fun r d => (1 - monomial x r) * d)%Q 1%Q rays.
Lemma one_minus_ok n r t : chainP t (defined_at n) (fun x => monomial x r) -> exists a, powP (lit "(1-" ++ t ++ lit ")") a /\ forall x, defined_at n x -> val x a (1 - monomial x r)%Q.
Proof.
  intros C. destruct (chain_prod _ _ _ C) as (_ & b & Hb & Vb). exists (MSub (MInt 1) b). split.
  - change (lit "(1-") with (lit "(" ++ lit "1" ++ lit "-")%list. rewrite <- !app_assoc. rewrite (app_assoc (lit "-") t), (app_assoc (lit "1")). apply pow_atom, atom_paren. apply (sum_of (lit "1") (lit "-" ++ t) (MInt 1)); [split; [reflexivity|discriminate]| |].
    + apply prod_pow, pow_atom. exact (atom_num 1 ltac:(lia)).
    + now apply terms_sub.
  - intros x Dx. apply val_sub; [exact (val_int x 1)|auto].
Qed.
Lemma rays_more n rays ts : Forall2 (fun p t => chainP t (defined_at n) (fun x => monomial x p)) rays ts -> forall acc, exists e, facP (concat (map (fun u => lit "*" ++ u) (map (fun r => lit "(1-" ++ r ++ lit ")") ts))) acc e /\ forall x p, defined_at n x -> val x acc p -> val x e (p * ray_product x rays)%Q.
Proof.
  induction 1 as [|r t rays ts C F IH]; intros acc; cbn [map concat].
  - exists acc. split; [apply fac_nil|]. intros x p _. apply val_ext. cbn. ring.
  - destruct (one_minus_ok n r t C) as (a & Ha & Va). destruct (IH (MMul acc a)) as (e & T & V). exists e. split.
    + apply fac_app with (b := MMul acc a); [|exact T]. exact (fac_mul _ acc a Ha).
    + intros x q Dx Hq. cbn [ray_product fold_right]. fold (ray_product x rays). apply (val_ext _ _ (q * (1 - monomial x r) * ray_product x rays)%Q); [ring|]. apply V; [exact Dx|]. apply val_mul; auto.
Qed.
Lemma write_rays_ok n rays : rays <> [] -> Forall (fun p => length p = n) rays -> exists ts, mapM (fun r => write_term r n) rays = Ok ts /\
  exists b, powP (lit "(" ++ separated (lit "*") (map (fun r => lit "(1-" ++ r ++ lit ")") ts) ++ lit ")") b /\ forall x, defined_at n x -> val x b (ray_product x rays).
Proof.
  intros NE F. destruct (write_terms_ok n rays F) as (ts & E & C). exists ts. split; [exact E|]. destruct C as [|r t rays ts C CT]; [congruence|]. cbn [map]. rewrite separated_cons. destruct (one_minus_ok n r t C) as (a & Ha & Va). destruct (rays_more n rays ts CT a) as (e & T & V). exists e. split.
  - apply pow_atom, atom_paren. apply sum_prod; [split; [reflexivity|discriminate]|]. exact (prod_of _ _ _ _ Ha T).
  - intros x Dx. cbn [ray_product fold_right]. apply V; auto.
Qed.
(** A cone. *)
Definition cone_value (x : nat -> Q) (c : gcone) : Q := let '(coef, rays, pts) := c in (inject_Z coef * point_sum x pts / ray_product x rays)%Q.
Definition in_domain (n : nat) (cones : list gcone) (x : nat -> Q) : Prop := defined_at n x /\ forall c r, In c cones -> In r (snd (fst c)) -> ~ (monomial x r == 1)%Q.
Lemma ray_product_nz x rays : (forall r, In r rays -> ~ (monomial x r == 1)%Q) -> ~ (ray_product x rays == 0)%Q.
Proof.
  induction rays as [|r rays IH]; intros H; cbn [ray_product fold_right]; [discriminate|]. fold (ray_product x rays). intros E. destruct (Qmult_integral _ _ E) as [E1|E1]; [apply (H r (or_introl eq_refl)); lra|]. exact (IH (fun r' H' => H r' (or_intror H')) E1).
Qed.
Definition printable (n : nat) (c : gcone) : Prop := let '(coef, rays, pts) := c in coef <> 0 /\ rays <> [] /\ Forall (fun r => length r = n) rays /\ Forall (fun r => length r = n) pts.
Lemma write_cone_ok n c : printable n c -> snd c <> [] -> exists t, write_cone c n = Ok t /\ chainP t (in_domain n [c]) (fun x => cone_value x c).
Proof.
  destruct c as [[coef rays] pts]. intros (NC & NR & FR & FP) NP. cbn [snd] in NP. unfold write_cone. rewrite (proj2 (Z.eqb_neq _ _) NC). destruct (write_points_ok n pts NP FP) as (ps & EP & CP). destruct (write_rays_ok n rays NR FR) as (rs & ER & b & Hb & Vb). rewrite EP. cbn [bind]. rewrite ER. cbn [bind]. eexists. split; [reflexivity|].
  change (lit "/(") with (lit "/" ++ lit "(")%list. rewrite <- (app_assoc (lit "/") (lit "(")).
  assert (CD : forall t q, chainP t (in_domain n [(coef, rays, pts)]) q -> chainP (t ++ lit "/" ++ lit "(" ++ separated (lit "*") (map (fun r => lit "(1-" ++ r ++ lit ")") rs) ++ lit ")") (in_domain n [(coef, rays, pts)]) (fun x => q x / ray_product x rays)%Q).
  { intros t q H. apply (chain_div _ _ _ _ b); [exact H|exact Hb|]. intros x [Dx Rx]. split; [now apply Vb|]. apply ray_product_nz. intros r Hr. exact (Rx _ r (or_introl eq_refl) Hr). }
  assert (CP' : chainP (if (1 <? length pts)%nat then lit "(" ++ separated (lit "+") ps ++ lit ")" else separated (lit "+") ps) (in_domain n [(coef, rays, pts)]) (fun x => point_sum x pts)) by (revert CP; apply chain_ext; [intros x [Dx _]; exact Dx|intros; reflexivity]).
  destruct (Z.eqb_spec coef 1) as [->|N1].
  - cbn [app]. refine (chain_ext _ _ _ _ _ _ _ (CD _ _ CP')); [auto|]. intros x _. cbn [cone_value]. change (inject_Z 1) with 1%Q. unfold Qdiv. ring.
  - rewrite <- !app_assoc. change (lit ")*") with (lit ")" ++ lit "*")%list. rewrite <- !app_assoc.
    assert (HC : exists a, powP (lit "(" ++ show_Z coef ++ lit ")") a /\ forall x, val x a (inject_Z coef)).
    { destruct (Z.lt_ge_cases coef 0) as [L|L].
      - exists (MNeg (MInt (- coef))). split; [|intros x; pose proof (val_neg_int x (- coef)) as V; now rewrite Z.opp_involutive in V]. apply pow_atom, atom_paren. rewrite (show_neg coef L). apply (sum_neg (show_Z (- coef))), prod_pow, pow_atom, atom_num. lia.
      - exists (MInt coef). split; [|intros x; apply val_int]. apply pow_atom, atom_paren. apply sum_prod; [|apply prod_pow, pow_atom, atom_num; exact L].
        destruct (show_nonneg coef L) as (u & E & _ & NU). rewrite E. destruct (digit_chars_cons u NU) as (c & s & -> & DC). split.
        + destruct (white c) eqn:W; [|reflexivity]. apply white_digit in W. destruct (digit_char_digit c DC) as (k & K). congruence.
        + intros ->. discriminate. }
    destruct HC as (a & Ha & Va). rewrite (app_assoc (show_Z coef)), (app_assoc (lit "(")). rewrite (app_assoc _ (lit "*")). rewrite (app_assoc ((lit "(" ++ show_Z coef ++ lit ")") ++ lit "*")). rewrite <- (app_assoc _ (lit "*")).
    refine (chain_ext _ _ _ _ _ _ _ (CD _ _ (chain_mul _ a (fun _ => inject_Z coef) _ _ _ _ Ha (fun x _ => Va x) CP'))); [auto| |split; [reflexivity|discriminate]]. intros x _. reflexivity.
Qed.
