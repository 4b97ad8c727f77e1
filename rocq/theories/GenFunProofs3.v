(** Proofs about GenFun: the text written for a sequence of cones. *)
From Coq Require Import QArith Qfield String Ascii.
From Verif Require Import Common ZMat RatVec Piped Irrational Barvinok Rational Text Count ExpSpec GenFun GenFunSpec GenFunProofs GenFunProofs2.
Open Scope Z_scope.

Fixpoint feed {A B} (f : A -> B -> outcome B) (l : list A) (st : B) : outcome B :=
  match l with [] => Ok st | a :: l' => bind (f a st) (feed f l') end.
Lemma feed_app {A B} (f : A -> B -> outcome B) l1 : forall l2 st, feed f (l1 ++ l2) st = bind (feed f l1 st) (feed f l2).
Proof. induction l1 as [|a l1 IH]; intros l2 st; cbn; [reflexivity|]. destruct (f a st); cbn; [apply IH|reflexivity]. Qed.

Lemma rational_app x cs : forall ds, (rational_value x (cs ++ ds) == rational_value x cs + rational_value x ds)%Q.
Proof.
  induction cs as [|c cs IH]; intros ds; cbn [app].
  - change (rational_value x []) with 0%Q. ring.
  - assert (E : forall l, (rational_value x (c :: l) == cone_value x c + rational_value x l)%Q). { intros l. destruct c as [[k rays] pts]. cbn [cone_value]. unfold rational_value. cbn [fold_right]. reflexivity. }
    rewrite !E, IH. ring.
Qed.
Lemma rational_one x c : (rational_value x [c] == cone_value x c)%Q.
Proof. destruct c as [[k rays] pts]. cbn [rational_value fold_right cone_value]. fold (ray_product x rays). apply Qplus_0_r. Qed.
Lemma domain_app n cs ds x : in_domain n (cs ++ ds) x -> in_domain n cs x /\ in_domain n ds x.
Proof. intros [H1 H2]. split; split; try exact H1; intros c r Hc Hr; apply (H2 c r); auto; apply in_or_app; auto. Qed.

Definition text_inv (n : nat) (cs : list gcone) (st : text * bool) : Prop :=
  (Forall (fun c => snd c = []) cs /\ st = ([], true)) \/
  (~ Forall (fun c => snd c = []) cs /\ snd st = false /\
   exists t1 t2 a e, fst st = (t1 ++ t2 ++ newline)%list /\ no_minus t1 /\ prodP t1 a /\ termsP t2 a e /\ forall x, in_domain n cs x -> val x e (rational_value x cs)).
Lemma white_newline : Forall (fun c => white c = true) newline.
Proof. repeat constructor. Qed.
Lemma empty_rational x cs : Forall (fun c : gcone => snd c = []) cs -> (rational_value x cs == 0)%Q.
Proof.
  induction 1 as [|[[k rays] pts] cs H Hs IH]; [reflexivity|]. cbn [snd] in H. subst pts. cbn [rational_value fold_right point_sum].
  fold (rational_value x cs). rewrite IH. unfold Qdiv. ring.
Qed.
Lemma text_step n cs st c : text_inv n cs st -> printable n c -> exists st', write_consume c st = Ok st' /\ text_inv n (cs ++ [c]) st'.
Proof.
  intros HI Hp. unfold write_consume. destruct (snd c) as [|p ps] eqn:Ec.
  - exists st. split; [reflexivity|]. destruct HI as [[H1 H2]|[H1 [H2 (t1 & t2 & a & e & E & N & P1 & P2 & HV)]]].
    + left. split; [apply Forall_app; split; [exact H1|repeat constructor; exact Ec]|exact H2].
    + right. split; [intros H; apply Forall_app in H; tauto|]. split; [exact H2|]. exists t1, t2, a, e.
      refine (conj E (conj N (conj P1 (conj P2 _)))). intros x Hx. apply domain_app in Hx as [Hx _]. apply val_ext with (2 := HV x Hx).
      rewrite rational_app. rewrite (empty_rational x [c]); [ring|repeat constructor; exact Ec].
  - assert (Hl : length p = n).
    { destruct c as [[k rays] pts]. cbn [snd] in Ec. subst pts. destruct Hp as (_ & _ & _ & H). apply Forall_inv in H. exact H. }
    rewrite Hl. destruct (write_cone_ok n c Hp) as (t & Et & Ht). { rewrite Ec. discriminate. }
    rewrite Et. cbn [bind]. eexists. split; [reflexivity|]. right.
    split. { intros H. apply Forall_app in H as [_ H]. apply Forall_inv in H. congruence. }
    split; [reflexivity|]. apply chain_prod in Ht as (N & e & Pe & HV).
    destruct HI as [[H1 H2]|[H1 [H2 (t1 & t2 & a & e1 & E & N1 & P1 & P2 & HV1)]]].
    + subst st. exists t, [], e, e. cbn [fst snd]. refine (conj _ (conj N (conj Pe (conj (terms_nil e) _)))); [reflexivity|].
      intros x Hx. apply domain_app in Hx as [_ Hx]. apply val_ext with (2 := HV x Hx). rewrite rational_app, rational_one, (empty_rational x cs H1). ring.
    + exists t1, (t2 ++ newline ++ lit " + " ++ t)%list, a, (MAdd e1 e). rewrite H2. cbn [fst snd].
      refine (conj _ (conj N1 (conj P1 (conj _ _)))).
      * rewrite E. rewrite <- !app_assoc. reflexivity.
      * apply terms_app with (1 := P2). change (newline ++ lit " + " ++ t)%list with ((newline ++ [" "%char]) ++ lit "+" ++ [" "%char] ++ t)%list.
        apply terms_add; [repeat constructor|repeat constructor|exact Pe].
      * intros x Hx. apply domain_app in Hx as [Hx1 Hx2]. apply val_ext with (2 := val_add x _ _ _ _ (HV1 x Hx1) (HV x Hx2)).
        rewrite rational_app, rational_one. reflexivity.
Qed.
Lemma text_all n ds : Forall (printable n) ds -> forall cs st, text_inv n cs st -> exists st', feed write_consume ds st = Ok st' /\ text_inv n (cs ++ ds) st'.
Proof.
  induction 1 as [|c ds Hc Hd IH]; intros cs st HI; cbn [feed].
  - exists st. rewrite app_nil_r. auto.
  - destruct (text_step n cs st c HI Hc) as (st1 & E & HI1). rewrite E. cbn [bind].
    destruct (IH _ _ HI1) as (st2 & E2 & HI2). exists st2. rewrite <- app_assoc in HI2. auto.
Qed.
Lemma text_reads n cs st : text_inv n cs st -> ~ Forall (fun c => snd c = []) cs -> exists e, reads (fst st) = Some e /\ forall x, in_domain n cs x -> val x e (rational_value x cs).
Proof.
  intros [[H1 H2]|[H1 [H2 (t1 & t2 & a & e & E & N & P1 & P2 & HV)]]] Hn; [contradiction|]. exists e. split; [|exact HV].
  rewrite E. rewrite app_assoc. apply reads_sum; [apply (sum_of t1 t2 a e N P1 P2)|apply white_newline].
Qed.
(** The projected cones. *)
Lemma deliver_some d AA b cs : forall cs' st, Forall2 (fun c c' => project_up d AA b c = Ok c') cs cs' -> feed (deliver (Some (d, AA, b))) cs st = feed write_consume cs' st.
Proof.
  induction cs as [|c cs IH]; intros cs' st H; inversion H as [|? c' ? l' E Ht]; subst; cbn [feed]; [reflexivity|].
  cbn [deliver]. rewrite E. cbn [bind]. destruct (write_consume c' st) as [s|er]; cbn [bind]; [apply IH; exact Ht|reflexivity].
Qed.

(** The whole list written at once. *)
Lemma write_list_ok n cs : cs <> [] -> Forall (printable n) cs -> Forall (fun c => snd c <> []) cs ->
  exists t e, write_list cs n = Ok (lit "gF:=" ++ t ++ lit ";" ++ newline)%list /\ reads t = Some e /\ forall x, in_domain n cs x -> val x e (rational_value x cs).
Proof.
  intros Hne Hp Hs.
  assert (HM : exists ts, mapM (fun c => write_cone c n) cs = Ok ts /\ Forall2 (fun c t => chainP t (in_domain n [c]) (fun x => cone_value x c)) cs ts).
  { clear Hne. induction cs as [|c cs IH]; [exists []; split; [reflexivity|constructor]|].
    destruct (IH (Forall_inv_tail Hp) (Forall_inv_tail Hs)) as (ts & E & H).
    destruct (write_cone_ok n c (Forall_inv Hp) (Forall_inv Hs)) as (t & Et & Ht).
    exists (t :: ts). cbn [mapM]. rewrite Et. cbn [bind]. rewrite E. cbn [bind]. split; [reflexivity|constructor; assumption]. }
  destruct HM as (ts & E & H). unfold write_list. destruct cs as [|c cs]; [congruence|]. rewrite E. cbn [bind].
  inversion H as [|? t ? l' Ht Hl]; subst. apply chain_prod in Ht as (N & e & Pe & HV).
  assert (HT : forall cs0 l0, Forall2 (fun c t => chainP t (in_domain n [c]) (fun x => cone_value x c)) cs0 l0 -> forall acc, exists e', termsP (concat (map (fun u => lit "+" ++ u) l0)) acc e' /\ forall x p, in_domain n cs0 x -> val x acc p -> val x e' (p + rational_value x cs0)%Q).
  { clear. induction 1 as [|c t cs l Hc Hl IH]; intros acc; cbn [map concat].
    - exists acc. split; [apply terms_nil|]. intros x p _ Hv. apply val_ext with (2 := Hv). cbn. ring.
    - apply chain_prod in Hc as (N & b & Pb & HV). destruct (IH (MAdd acc b)) as (e' & Te & HVe). exists e'. split.
      + apply terms_app with (2 := Te). apply (terms_add [] [] t acc b); [constructor|constructor|exact Pb].
      + intros x p Hx Hv. destruct (domain_app n [c] cs x Hx) as [Hx1 Hx2]. apply val_ext with (2 := HVe x _ Hx2 (val_add x _ _ _ _ Hv (HV x Hx1))).
        change (c :: cs) with ([c] ++ cs)%list. rewrite rational_app, rational_one. ring. }
  destruct (HT cs l' Hl e) as (e' & Te & HVe). exists (separated (lit "+") (t :: l')), e'. split; [reflexivity|]. split.
  - rewrite separated_cons. rewrite <- (app_nil_r (t ++ _)). apply reads_sum; [|constructor]. apply (sum_of t _ e e' N Pe Te).
  - intros x Hx. destruct (domain_app n [c] cs x Hx) as [Hx1 Hx2]. apply val_ext with (2 := HVe x _ Hx2 (HV x Hx1)).
    change (c :: cs) with ([c] ++ cs)%list. rewrite rational_app, rational_one. reflexivity.
Qed.
