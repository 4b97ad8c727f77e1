(** C40, C64: expansion of generating-function trees; the node pool.  Specification:
    PolyTreeSpec.v ([denotes], [truncation], [ordered]). *)
From Coq Require Import QArith.
From Verif Require Import Common ZMat Series HermiteProofs PolyTree PolyTreeSpec PolyTreeProofs PolyTreeProofs2.
Open Scope Z_scope.

(** Expansions requested one after the other on the same tree. *)
Fixpoint session (nodes : list pnode) (ten : Z) (st : list cell) (reqs : list (nat * nat)) : outcome (list (list Z) * list cell) :=
  match reqs with
  | [] => Ok ([], st)
  | (id, deg) :: reqs' => bind (expand nodes deg ten (length nodes) st id) (fun p =>
                          bind (session nodes ten (snd p) reqs') (fun q => Ok (fst p :: fst q, snd q)))
  end.
Fixpoint non_increasing (d : nat) (l : list nat) : Prop := match l with [] => True | x :: l' => (x <= d)%nat /\ non_increasing x l' end.
(** Nodes whose flag says dirty, with room for capacity+1 coefficients. *)
Definition fresh (nodes : list pnode) (capacity : nat) (st : list cell) : Prop :=
  length st = length nodes /\ forall c, In c st -> dirty c = true /\ length (cached c) = (capacity + 1)%nat.

(** C40. Requests of non-increasing degree (in particular of one fixed degree), in any order
    and as often as one likes, on any tree with shared parts: every answer is the truncation
    of the series the requested node denotes. *)
Theorem expansion_exact : forall nodes ten capacity st reqs,
  ordered nodes -> fresh nodes capacity st -> non_increasing capacity (map (fun q => snd (fst q)) reqs) ->
  Forall (fun q => denotes nodes ten (fst (fst q)) (snd q)) reqs ->
  exists st', session nodes ten st (map fst reqs) = Ok (map (fun q => truncation (snd q) (snd (fst q))) reqs, st').
Proof.
  intros nodes ten capacity st reqs O [L FR] NI D.
  assert (OK : cells_ok nodes ten capacity st).
  { split; auto. intros id c E. apply nth_error_In in E. destruct (FR c E) as [E1 E2]. split; [lia|]. congruence. }
  clear L FR. revert capacity st NI OK. induction reqs as [|[[id deg] f] reqs IH]; intros d st NI OK; cbn [map session]; [eauto|]. cbn [map fst snd non_increasing] in *. destruct NI as [Hd NI].
  pose proof (Forall_inv D) as D1. cbn [fst snd] in D1. apply (cells_weaken nodes ten d deg) in OK; auto.
  assert (Hid : (id < length nodes)%nat) by (destruct (den_inv nodes ten id f D1) as (nd & En & _); apply nth_error_Some; congruence).
  destruct (expand_ok nodes ten O deg (length nodes) id st f Hid OK D1) as (r & st1 & E & R & OK1). rewrite E. cbn [bind fst snd].
  destruct (IH (Forall_inv_tail D) deg st1 NI OK1) as (st2 & E2). rewrite E2. cbn [bind fst snd]. apply repr_trunc in R. subst r. eauto.
Qed.
(** (2 + 3t)^2 / (1 - t), both shared and squared again: nodes 0..5. *)
Definition ex_nodes : list pnode := [PT 2 0; PT 3 1; PAdd [0%nat; 1%nat]; PExp [2%nat] 2; PT (-1) 1; PT 1 0; PAdd [5%nat; 4%nat]; PDiv [3%nat; 6%nat]; PMul [3%nat; 2%nat; 2%nat]].
Definition ex_cells : list cell := repeat (mkCell true (repeat 0 4)) 9.
Example expansion_witness :
  match session ex_nodes 10 ex_cells [(8, 3); (7, 3); (3, 2); (7, 1)]%nat with Ok p => fst p | Err _ => [] end = [[16; 96; 216; 216]; [40; 160; 250; 250]; [4; 12; 9]; [40; 160]].
Proof. vm_compute. reflexivity. Qed.
Example expansion_denotes : ordered ex_nodes /\ fresh ex_nodes 3 ex_cells /\ exists f, denotes ex_nodes 10 8 f /\ f 3%nat = 216.
Proof.
  split; [|split].
  - intros id nd c E I. do 9 (destruct id as [|id]; [injection E as <-; cbn [children In] in I; intuition lia|]). destruct id; discriminate.
  - split; [reflexivity|]. intros c Hc. apply repeat_spec in Hc. subst c. split; reflexivity.
  - assert (D2 : denotes ex_nodes 10 2 (zadd (monomial 2 0) (zadd (monomial 3 1) zzero))).
    { eapply den_add; [reflexivity|]. eapply sum_cons; [eapply den_t; [reflexivity|lia|reflexivity]| |reflexivity]. eapply sum_cons; [eapply den_t; [reflexivity|lia|reflexivity]| |reflexivity]. now apply sum_nil. }
    eexists. split; [eapply den_mul; [reflexivity|]; eapply prod_cons; [eapply den_exp; [reflexivity|lia|exact D2|reflexivity]| |reflexivity]; eapply prod_cons; [exact D2| |reflexivity]; eapply prod_cons; [exact D2|now apply prod_nil|reflexivity]|].
    vm_compute. reflexivity.
Qed.

(** A denominator without constant term makes the division abort, whatever its other
    coefficients are. *)
Theorem expansion_zero_denominator : forall nodes ten deg st id a b ch fa fb, ordered nodes -> fresh nodes deg st ->
  nth_error nodes id = Some (PDiv (a :: b :: ch)) -> denotes nodes ten a fa -> denotes nodes ten b fb -> fb O = 0 ->
  expand nodes deg ten (length nodes) st id = Err DivByZero.
Proof.
  intros nodes ten deg st id a b ch fa fb O [L FR] H Da Db B0.
  assert (OK : cells_ok nodes ten deg st) by (split; auto; intros i c E; apply nth_error_In in E; destruct (FR c E) as [E1 E2]; split; [lia|congruence]).
  assert (Hid : (id < length nodes)%nat) by (apply nth_error_Some; congruence). destruct (length nodes) as [|n] eqn:En; [lia|]. cbn [expand]. rewrite H.
  destruct (nth_error st id) as [ce|] eqn:Ec; [|apply nth_error_None in Ec; lia]. rewrite (proj1 (FR ce (nth_error_In _ _ Ec))). cbn [negb].
  pose proof (O id _ a H ltac:(cbn; auto)) as Ha. pose proof (O id _ b H ltac:(cbn; auto)) as Hb.
  destruct (expand_ok nodes ten O deg n a st fa ltac:(lia) OK Da) as (r & s & E & R & OK'). rewrite E. cbn [bind fst snd].
  destruct (expand_ok nodes ten O deg n b s fb ltac:(lia) OK' Db) as (r2 & s2 & E2 & R2 & OK2). rewrite E2. cbn [bind fst snd].
  unfold div_series. rewrite (proj2 R2) by lia. rewrite B0. reflexivity.
Qed.
Example zero_denominator_witness : expand [PT 1 0; PT 1 1; PDiv [0%nat; 1%nat]] 2 10 3 (repeat (mkCell true [0; 0; 0]) 3) 2 = Err DivByZero.
Proof. vm_compute. reflexivity. Qed.

(** The cache does not remember the degree or the scale it was filled for: a later request
    of higher degree, or with another scale, gets stale coefficients. *)
Theorem cache_growing_degree_refuted : exists nodes ten st id f, ordered nodes /\ fresh nodes 2 st /\ denotes nodes ten id f /\
  (exists st', session nodes ten st [(id, 2%nat)] = Ok ([truncation f 2], st')) /\
  exists r st', session nodes ten st [(id, 1%nat); (id, 2%nat)] = Ok ([truncation f 1; r], st') /\ r <> truncation f 2.
Proof.
  exists [PT 5 2; PAdd [0%nat]], 10, (repeat (mkCell true [0; 0; 0]) 2), 1%nat, (zadd (monomial 5 2) zzero). split; [|split; [|split; [|split]]].
  - intros id nd c E I. do 2 (destruct id as [|id]; [injection E as <-; cbn [children In] in I; intuition lia|]). destruct id; discriminate.
  - split; [reflexivity|]. intros c Hc. apply repeat_spec in Hc. subst c. split; reflexivity.
  - eapply den_add; [reflexivity|]. eapply sum_cons; [eapply den_t; [reflexivity|lia|reflexivity]|now apply sum_nil|reflexivity].
  - eexists. vm_compute. reflexivity.
  - eexists _, _. split; [vm_compute; reflexivity|]. vm_compute. discriminate.
Qed.
(** Raising to the power 0: the search for the highest bit does not end. *)
Theorem exponent_zero_refuted : forall nodes ten deg fuel st id c ch ce, nth_error nodes id = Some (PExp (c :: ch) 0) -> nth_error st id = Some ce -> dirty ce = true ->
  expand nodes deg ten fuel st id = Err OutOfFuel.
Proof. intros nodes ten deg [|fuel] st id c ch ce H Hs D; [reflexivity|]. cbn [expand]. rewrite H, Hs, D. cbn [negb]. assert (T : top_bit 32 0 = Err OutOfFuel) by (vm_compute; reflexivity). rewrite T. reflexivity. Qed.

(** C64. The node pool: histories of allocations, resets and writes to nodes. *)
Inductive pool_op := OGet | OReset | OWrite (id : nat) (d : bool) (r : list Z).
Fixpoint pool_run (degree : nat) (p : pool) (since : list nat) (ops : list pool_op) : outcome (pool * list nat) :=
  match ops with
  | [] => Ok (p, since)
  | OGet :: ops' => bind (pool_get degree p) (fun q => pool_run degree (snd q) (fst q :: since) ops')
  | OReset :: ops' => pool_run degree (pool_reset p) [] ops'
  | OWrite id d r :: ops' => pool_run degree (mkPool (upd (pcells p) id (mkCell d r)) (pused p)) since ops'
  end.
Definition pool_ok (degree : nat) (p : pool) (since : list nat) : Prop :=
  (pused p < length (pcells p))%nat /\ (forall c, In c (pcells p) -> length (cached c) = (degree + 1)%nat) /\ forall i, In i since -> (i < pused p)%nat.
Lemma in_upd {A} (l : list A) : forall i x y, In y (upd l i x) -> y = x \/ In y l.
Proof. induction l as [|a l IH]; intros i x y H; [destruct H|]. destruct i; cbn [upd In] in *; [destruct H; auto|]. destruct H as [H|H]; auto. destruct (IH _ _ _ H); auto. Qed.
Lemma pool_get_ok degree p since : pool_ok degree p since -> exists q, pool_get degree p = Ok (pused p, q) /\ pool_ok degree q (pused p :: since) /\
  (forall j, (j < length (pcells p))%nat -> j <> pused p -> nth_error (pcells q) j = nth_error (pcells p) j) /\ exists c, nth_error (pcells q) (pused p) = Some c /\ dirty c = true /\ length (cached c) = (degree + 1)%nat.
Proof.
  intros (P1 & P2 & P3). unfold pool_get. destruct (nth_error (pcells p) (pused p)) as [c|] eqn:E; [|apply nth_error_None in E; lia].
  assert (Hc : length (cached c) = (degree + 1)%nat) by (apply P2; eapply nth_error_In; eauto).
  set (cells := upd (pcells p) (pused p) (mkCell true (cached c))). assert (LC : length cells = length (pcells p)) by apply length_upd.
  assert (P2' : forall x, In x cells -> length (cached x) = (degree + 1)%nat) by (intros x Hx; apply in_upd in Hx as [->|Hx]; auto).
  assert (N : forall j, (j < length (pcells p))%nat -> j <> pused p -> nth_error cells j = nth_error (pcells p) j) by (intros j _ Hj; unfold cells; rewrite nth_error_upd; destruct (Nat.eqb_spec (pused p) j); congruence).
  assert (M : nth_error cells (pused p) = Some (mkCell true (cached c))) by (unfold cells; rewrite nth_error_upd, Nat.eqb_refl; apply Nat.ltb_lt in P1; now rewrite P1).
  assert (P3' : forall i, In i (pused p :: since) -> (i < S (pused p))%nat) by (intros i [<-|Hi]; [lia|specialize (P3 i Hi); lia]).
  destruct (S (pused p) <? length cells)%nat eqn:B.
  - apply Nat.ltb_lt in B. eexists. split; [reflexivity|]. unfold pool_ok. cbn [pcells pused]. split; [auto|]. split; auto. exists (mkCell true (cached c)). auto.
  - apply Nat.ltb_ge in B. eexists. split; [reflexivity|]. unfold pool_ok. cbn [pcells pused]. split; [|split].
    + split; [rewrite app_length; cbn [length]; lia|]. split; auto. intros x Hx. apply in_app_iff in Hx as [Hx|[<-|[]]]; auto. unfold new_cell. cbn [cached]. apply repeat_length.
    + intros j Hj Hn. rewrite nth_error_app1 by lia. auto.
    + exists (mkCell true (cached c)). rewrite nth_error_app1 by lia. auto.
Qed.
(** After any history the next node handed out is not one handed out since the last reset, is
    marked dirty, has room for degree+1 coefficients, and no other node is touched. *)
Theorem pool_hands_out_fresh_nodes : forall degree ops,
  (forall id d r, In (OWrite id d r) ops -> length r = (degree + 1)%nat) ->
  exists p since, pool_run degree (pool_new degree) [] ops = Ok (p, since) /\
  exists i q, pool_get degree p = Ok (i, q) /\ ~ In i since /\
    (exists c, nth_error (pcells q) i = Some c /\ dirty c = true /\ length (cached c) = (degree + 1)%nat) /\
    forall j, (j < length (pcells p))%nat -> j <> i -> nth_error (pcells q) j = nth_error (pcells p) j.
Proof.
  intros degree ops W.
  assert (G : forall p since, pool_ok degree p since -> exists p' since', pool_run degree p since ops = Ok (p', since') /\ pool_ok degree p' since').
  { revert W. induction ops as [|[| |id d r] ops IH]; intros W p since P; cbn [pool_run]; [eauto| | |].
    - destruct (pool_get_ok degree p since P) as (q & E & Q & _). rewrite E. cbn [bind fst snd]. apply IH; auto. intros; eapply W; right; eauto.
    - apply IH; [intros; eapply W; right; eauto|]. destruct P as (P1 & P2 & _). split; [cbn; lia|]. split; auto. intros i [].
    - apply IH; [intros; eapply W; right; eauto|]. destruct P as (P1 & P2 & P3). split; [cbn [pused pcells]; now rewrite length_upd|]. split; auto. cbn [pcells]. intros c Hc. apply in_upd in Hc as [->|Hc]; auto. cbn [cached]. eapply W. now left. }
  destruct (G (pool_new degree) []) as (p & since & E & P).
  - unfold pool_ok, pool_new. cbn. split; [lia|]. split; [|tauto]. intros c [<-|[]]. unfold new_cell. cbn [cached]. apply repeat_length.
  - exists p, since. split; auto. destruct (pool_get_ok degree p since P) as (q & Eq & Q & N & C). exists (pused p), q. split; auto. split; [|auto]. intros I. destruct P as (_ & _ & P3). specialize (P3 _ I). lia.
Qed.
Example pool_witness : match pool_run 1 (pool_new 1) [] [OGet; OWrite 0 false [7; 8]; OGet; OReset; OGet; OGet; OGet] with Ok (p, since) => (since, pcells p) | Err _ => ([], []) end
  = ([2; 1; 0]%nat, [mkCell true [7; 8]; mkCell true [0; 0]; mkCell true [0; 0]; mkCell true [0; 0]]).
Proof. vm_compute. reflexivity. Qed.

Print Assumptions expansion_exact.
Print Assumptions expansion_zero_denominator.
Print Assumptions cache_growing_degree_refuted.
Print Assumptions exponent_zero_refuted.
Print Assumptions pool_hands_out_fresh_nodes.
