(** * Proofs: what a script depends on *)
From Coq Require Import List Arith NArith Bool String Lia Permutation.
From Verif Require Import M_Base M_Data M_Mem M_Heed M_Duck M_Regex M_Lexer M_Graph M_Parser M_Display M_Interp
  S_Order S_Str S_Store S_Graph S_Filter S_Lexer S_Parser S_Display S_Interp S_GraphHist S_Names S_Json
  P_Ord P_Agree P_Lexer P_LexMore P_Parser P_Display P_Graph P_Reread S_Wander P_Wander P_WanderDet S_Rewrite S_Footprint.
Import ListNotations.
Open Scope list_scope.

Section Footprint.
  Variable B : backend.

  Definition put (v : world) (c : str) (k : list entry) : world := fun n => if str_dec n c then Some k else v n.

  Lemma put_rebound v c k P : set_where P k -> rebound v c P (put v c k).
  Proof.
    intros H. split.
    - exists k. unfold put. destruct (str_dec c c); [auto|congruence].
    - intros n N. unfold put. destruct (str_dec n c); [congruence|reflexivity].
  Qed.

  Lemma agree_refl (W : str -> Prop) w : agree_on W w w.
  Proof. intros n _. reflexivity. Qed.

  Lemma rebound_on (W : str -> Prop) w u c P Q w' : agree_on W w u -> rebound w c P w' -> (forall e, P e <-> Q e) ->
    exists u', rebound u c Q u' /\ agree_on W w' u' /\ (forall n, n <> c -> u' n = u n).
  Proof.
    intros A [(l & E & S & H) O] Eq. exists (put u c l). split; [|split].
    - apply put_rebound. split; [exact S|]. intros e. rewrite H. apply Eq.
    - intros n Wn. unfold put. destruct (str_dec n c) as [->|N]; [symmetry; exact E|]. rewrite (O n N). apply A, Wn.
    - intros n N. unfold put. destruct (str_dec n c); [congruence|reflexivity].
  Qed.

  Lemma reads_on w u c B0 o : u c = w c -> reads w c B0 o -> reads u c B0 o.
  Proof. intros E H. destruct H; constructor; congruence. Qed.

  Lemma finds_on w u c p B0 o : u c = w c -> finds w c p B0 o -> finds u c p B0 o.
  Proof.
    intros E H. destruct H as [l k El Hn Hk|l e El Hi Hv|El| |].
    - eapply fi_found; [rewrite E; exact El|exact Hn|exact Hk].
    - eapply fi_variable; [rewrite E; exact El|exact Hi|exact Hv].
    - apply fi_missing. congruence.
    - apply fi_lmdb.
    - apply fi_duck.
  Qed.

  Lemma binds_on (W : str -> Prop) w u c n B0 o w' : W c -> agree_on W w u -> binds w c n B0 o w' ->
    exists u', binds u c n B0 o u' /\ agree_on W w' u' /\ (forall m, m <> c -> u' m = u m).
  Proof.
    intros Wc A H. pose proof (A c Wc) as E. destruct H as [w' Rb|w' Sc Rb|Sc|w' En Rb|l El].
    - destruct (rebound_on W w u c _ (stored_form n) w' A Rb) as (u' & H1 & H2 & H3); [reflexivity|]. exists u'. split; [constructor; exact H1|auto].
    - destruct (rebound_on W w u c _ (fun e => (exists l, u c = Some l /\ In e l) \/ stored_form n e) w' A Rb) as (u' & H1 & H2 & H3); [intros e; rewrite E; reflexivity|].
      exists u'. split; [constructor; assumption|auto].
    - exists u. split; [apply bi_lmdb_name; exact Sc|]. split; [exact A|reflexivity].
    - destruct (rebound_on W w u c _ (stored_form n) w' A Rb) as (u' & H1 & H2 & H3); [reflexivity|]. exists u'. split; [constructor; [congruence|exact H1]|auto].
    - exists u. split; [eapply bi_duck_again; rewrite E; exact El|]. split; [exact A|reflexivity].
  Qed.

  Definition frame (L : str -> Prop) (u u' : world) : Prop := forall n, ~ L n -> u' n = u n.

  Lemma frame_refl L u : frame L u u. Proof. intros n _. reflexivity. Qed.
  Lemma frame_trans (L1 L2 L : str -> Prop) a b c : (forall n, L1 n -> L n) -> (forall n, L2 n -> L n) -> frame L1 a b -> frame L2 b c -> frame L a c.
  Proof. intros H1 H2 F1 F2 n N. rewrite (F2 n) by (intros X; apply N, H2, X). apply F1. intros X; apply N, H1, X. Qed.
  Lemma frame_weak (L1 L : str -> Prop) a b : (forall n, L1 n -> L n) -> frame L1 a b -> frame L a b.
  Proof. intros H F n N. apply F. intros X; apply N, H, X. Qed.

  Definition value_on (v : value) (w : world) (o : outcome) (w' : world) : Prop := forall (W : str -> Prop) u,
    (forall n, value_looks v n -> W n) -> agree_on W w u ->
    exists u', gives B v u o u' /\ agree_on W w' u' /\ frame (value_lets v) u u'.
  Definition call_on (name : str) (args : list value) (w : world) (o : outcome) (w' : world) : Prop := forall (W : str -> Prop) u,
    (forall n, call_looks name args n -> W n) -> agree_on W w u ->
    exists u', calls B name args u o u' /\ agree_on W w' u' /\ frame (call_lets name args) u u'.

  Ltac stay t := eexists; split; [apply t; try eassumption|split; [eassumption|apply frame_refl]].

  Lemma footprint :
    (forall v w o w', gives B v w o w' -> value_on v w o w')
    /\ (forall name args w o w', calls B name args w o w' -> call_on name args w o w').
  Proof.
    apply (reference_ind B (fun v w o w' _ => value_on v w o w') (fun name args w o w' _ => call_on name args w o w'));
      unfold value_on, call_on; intros.
    - stay gi_element.
    - stay gi_network.
    - stay gi_empty.
    - destruct (H W u) as (u' & K & A & F); [intros m Hm; apply H0; constructor; exact Hm|exact H1|].
      exists u'. split; [constructor; exact K|]. split; [exact A|]. eapply frame_weak; [|exact F]. intros m Hm. constructor. exact Hm.
    - stay gi_other.
    - stay ca_unknown.
    - stay ca_id.
    - stay ca_id_args.
    - stay ca_ignore.
    - stay ca_docs.
    - stay ca_docs_args.
    - stay ca_union.
    - stay ca_union_other.
    - stay ca_union_args.
    - exists u. split; [apply ca_read; eapply reads_on; [|eassumption]; apply H0, H; constructor|]. split; [exact H0|apply frame_refl].
    - stay ca_read_args.
    - exists u. split; [apply ca_filter; eapply finds_on; [|eassumption]; apply H0, H; constructor|]. split; [exact H0|apply frame_refl].
    - stay ca_filter_args.
    - stay ca_equal_args.
    - destruct (H W u) as (u' & K & A & F); [intros m Hm; apply H0; apply cl_left; exact Hm|exact H1|].
      exists u'. split; [eapply ca_equal_left; eassumption|]. split; [exact A|]. eapply frame_weak; [|exact F]. intros m Hm. apply ce_left. exact Hm.
    - destruct (H W u) as (u1 & K & A & F); [intros m Hm; apply H1; apply cl_left; exact Hm|exact H2|].
      destruct (H0 W u1) as (u2 & K2 & A2 & F2); [intros m Hm; apply H1; apply cl_right; exact Hm|exact A|].
      exists u2. split; [eapply ca_equal_right; eassumption|]. split; [exact A2|]. eapply frame_trans; [| |exact F|exact F2]; intros m Hm; [apply ce_left|apply ce_right]; exact Hm.
    - destruct (H W u) as (u1 & K & A & F); [intros m Hm; apply H1; apply cl_left; exact Hm|exact H2|].
      destruct (H0 W u1) as (u2 & K2 & A2 & F2); [intros m Hm; apply H1; apply cl_right; exact Hm|exact A|].
      exists u2. split; [eapply ca_equal; eassumption|]. split; [exact A2|]. eapply frame_trans; [| |exact F|exact F2]; intros m Hm; [apply ce_left|apply ce_right]; exact Hm.
    - destruct (H W u) as (u1 & K & A & F); [intros m Hm; apply H1; apply cl_left; exact Hm|exact H2|].
      destruct (H0 W u1) as (u2 & K2 & A2 & F2); [intros m Hm; apply H1; apply cl_right; exact Hm|exact A|].
      exists u2. split; [eapply ca_unequal; eassumption|]. split; [exact A2|]. eapply frame_trans; [| |exact F|exact F2]; intros m Hm; [apply ce_left|apply ce_right]; exact Hm.
    - stay ca_fail_args.
    - destruct (H W u) as (u' & K & A & F); [intros m Hm; apply H0; apply cl_fail; exact Hm|exact H1|].
      exists u'. split; [eapply ca_fail_not; eassumption|]. split; [exact A|]. eapply frame_weak; [|exact F]. intros m Hm. apply ce_fail. exact Hm.
    - destruct (H W u) as (u' & K & A & F); [intros m Hm; apply H0; apply cl_fail; exact Hm|exact H1|].
      exists u'. split; [eapply ca_fail; eassumption|]. split; [exact A|]. eapply frame_weak; [|exact F]. intros m Hm. apply ce_fail. exact Hm.
    - destruct (H W u) as (u' & K & A & F); [intros m Hm; apply H0; apply cl_fail; exact Hm|exact H1|].
      exists u'. split; [eapply ca_fail_crash; eassumption|]. split; [exact A|]. eapply frame_weak; [|exact F]. intros m Hm. apply ce_fail. exact Hm.
    - destruct (binds_on W w u (el_name c) n B o w') as (u' & K & A & F); [apply H; constructor|exact H0|assumption|].
      exists u'. split; [apply ca_let; exact K|]. split; [exact A|]. intros m N. apply F. intros ->. apply N. constructor.
    - destruct (H W u) as (u1 & K & A & F); [intros m Hm; apply H0; apply cl_let_in; exact Hm|exact H1|].
      destruct (binds_on W w1 u1 (el_name c) n B o w') as (u' & K' & A' & F'); [apply H0; constructor|exact A|assumption|].
      exists u'. split; [eapply ca_let_quote; eassumption|]. split; [exact A'|].
      intros m N. rewrite F' by (intros ->; apply N; constructor). apply F. intros X. apply N. apply ce_let_in. exact X.
    - destruct (H W u) as (u1 & K & A & F); [intros m Hm; apply H0; apply cl_let_in; exact Hm|exact H1|].
      exists u1. split; [eapply ca_let_other; eassumption|]. split; [exact A|]. eapply frame_weak; [|exact F]. intros m Hm. apply ce_let_in. exact Hm.
    - stay ca_let_args.
  Qed.

  Definition program_looks (cs : list call) (n : str) : Prop := exists c, In c cs /\ call_looks (el_name (c_name c)) (c_args c) n.
  Definition program_lets (cs : list call) (n : str) : Prop := exists c, In c cs /\ call_lets (el_name (c_name c)) (c_args c) n.

  Lemma performs_on cs w o w' : performs B cs w o w' -> forall (W : str -> Prop) u, (forall n, program_looks cs n -> W n) -> agree_on W w u ->
    exists u', performs B cs u o u' /\ agree_on W w' u' /\ frame (program_lets cs) u u'.
  Proof.
    destruct footprint as [_ FC].
    induction 1 as [w|c w o w' H|c d rest w a w1 o w' H K IH|c d rest w o w' H N]; intros W u Hl A.
    - exists u. split; [constructor|]. split; [exact A|apply frame_refl].
    - destruct (FC _ _ _ _ _ H W u) as (u' & K & A' & F); [intros n Hn; apply Hl; exists c; split; [left; reflexivity|exact Hn]|exact A|].
      exists u'. split; [constructor; exact K|]. split; [exact A'|]. eapply frame_weak; [|exact F]. intros n Hn. exists c. split; [left; reflexivity|exact Hn].
    - destruct (FC _ _ _ _ _ H W u) as (u1 & K1 & A1 & F1); [intros n Hn; apply Hl; exists c; split; [left; reflexivity|exact Hn]|exact A|].
      destruct (IH W u1) as (u2 & K2 & A2 & F2); [intros n (x & Hx & Hn); apply Hl; exists x; split; [right; exact Hx|exact Hn]|exact A1|].
      exists u2. split; [eapply pe_more; eassumption|]. split; [exact A2|].
      eapply frame_trans; [| |exact F1|exact F2].
      + intros n Hn. exists c. split; [left; reflexivity|exact Hn].
      + intros n (x & Hx & Hn). exists x. split; [right; exact Hx|exact Hn].
    - destruct (FC _ _ _ _ _ H W u) as (u' & K & A' & F); [intros n Hn; apply Hl; exists c; split; [left; reflexivity|exact Hn]|exact A|].
      exists u'. split; [apply pe_stop; assumption|]. split; [exact A'|]. eapply frame_weak; [|exact F]. intros n Hn. exists c. split; [left; reflexivity|exact Hn].
  Qed.

  Lemma means_on script w o w' : means B w script o w' -> forall (W : str -> Prop) u, (forall n, looks_at script n -> W n) -> agree_on W w u ->
    exists u', means B u script o u' /\ agree_on W w' u' /\ frame (lets_name script) u u'.
  Proof.
    intros [ts k cs o1 w1 L K G P|ts k next L K St|ts k L K N1 N2|F] W u Hl A.
    - assert (R : reads_as script cs) by (exists ts, k; auto).
      destruct (performs_on cs w o1 w1 P W u) as (u' & P' & A' & F); [intros n (c & Hc & Hn); apply Hl; exists cs, c; auto|exact A|].
      exists u'. split; [eapply me_runs; eassumption|]. split; [exact A'|]. eapply frame_weak; [|exact F]. intros n (c & Hc & Hn). exists cs, c. auto.
    - exists u. split; [eapply me_stray; eassumption|]. split; [exact A|apply frame_refl].
    - exists u. split; [eapply me_outside; eassumption|]. split; [exact A|apply frame_refl].
    - exists u. split; [apply me_not_text; exact F|]. split; [exact A|apply frame_refl].
  Qed.

  Lemma means_frame script w o w' : means B w script o w' -> frame (lets_name script) w w'.
  Proof.
    intros M. destruct (means_on script w o w' M (fun _ => True) w (fun _ _ => Logic.I) (agree_refl _ w)) as (u & M' & A & F).
    intros n N. rewrite <- (A n Logic.I). apply F, N.
  Qed.

  Lemma means_same script w o w' u : means B w script o w' -> same_world w u -> exists u', means B u script o u' /\ same_world w' u'.
  Proof.
    intros M E. destruct (means_on script w o w' M (fun _ => True) u (fun _ _ => Logic.I)) as (u' & M' & A & _); [intros n _; symmetry; apply E|].
    exists u'. split; [exact M'|]. intros n. symmetry. apply A. exact Logic.I.
  Qed.

  Lemma all_mean_same scripts w os w' : all_mean B w scripts os w' -> forall u, same_world w u -> exists u', all_mean B u scripts os u' /\ same_world w' u'.
  Proof.
    induction 1 as [w|w x rest o os w1 w2 M _ IH]; intros u E; [exists u; split; [constructor|exact E]|].
    destruct (means_same _ _ _ _ _ M E) as (u1 & M1 & E1). destruct (IH u1 E1) as (u2 & A2 & E2). exists u2. split; [econstructor; eassumption|exact E2].
  Qed.

  (** What is let is looked at. *)
  Scheme vlets_mut := Induction for value_lets Sort Prop with clets_mut := Induction for call_lets Sort Prop.
  Combined Scheme lets_ind from vlets_mut, clets_mut.

  Lemma lets_looks : (forall v n, value_lets v n -> value_looks v n) /\ (forall name args n, call_lets name args n -> call_looks name args n).
  Proof.
    apply (lets_ind (fun v n _ => value_looks v n) (fun name args n _ => call_looks name args n)); intros.
    - constructor; assumption.
    - constructor.
    - apply cl_let_in; assumption.
    - apply cl_left; assumption.
    - apply cl_right; assumption.
    - apply cl_fail; assumption.
  Qed.

  Lemma script_lets_looks s n : lets_name s n -> looks_at s n.
  Proof. intros (cs & c & R & Hc & H). exists cs, c. split; [exact R|]. split; [exact Hc|]. apply lets_looks, H. Qed.

  Lemma opt_dec (a b : option (list entry)) : {a = b} + {a <> b}.
  Proof. decide equality. apply list_eq_dec. apply entry_dec. Qed.

  Lemma swap_two x y w ox oy w1 w2 : independent x y -> means B w x ox w1 -> means B w1 y oy w2 ->
    exists u1 u2, means B w y oy u1 /\ means B u1 x ox u2 /\ same_world w2 u2.
  Proof.
    intros [I1 I2] M1 M2. pose proof (means_frame _ _ _ _ M1) as F1. pose proof (means_frame _ _ _ _ M2) as F2.
    destruct (means_on y w1 oy w2 M2 (looks_at y) w (fun _ H => H)) as (u1 & M3 & A3 & F3).
    { intros n Hn. symmetry. apply F1. intros X. exact (I1 n X Hn). }
    destruct (means_on x w ox w1 M1 (looks_at x) u1 (fun _ H => H)) as (u2 & M4 & A4 & F4).
    { intros n Hn. apply F3. intros X. exact (I2 n X Hn). }
    exists u1, u2. split; [exact M3|]. split; [exact M4|]. intros n. destruct (opt_dec (w2 n) (u2 n)) as [E|N]; [exact E|]. exfalso.
    assert (Nx : ~ lets_name x n).
    { intros X. apply N. rewrite (F2 n); [|intros Y; exact (I1 n X (script_lets_looks _ _ Y))]. symmetry. apply A4. apply script_lets_looks, X. }
    assert (Ny : ~ lets_name y n).
    { intros Y. apply N. rewrite (F4 n Nx). symmetry. apply A3. apply script_lets_looks, Y. }
    apply N. rewrite (F2 n Ny), (F1 n Nx), (F4 n Nx), (F3 n Ny). reflexivity.
  Qed.

  Lemma independent_sym x y : independent x y -> independent y x.
  Proof. intros [H1 H2]. split; assumption. Qed.

  Lemma pairs_perm (R : str -> str -> Prop) : (forall x y, R x y -> R y x) -> forall ss ts, Permutation ss ts -> ForallOrdPairs R ss -> ForallOrdPairs R ts.
  Proof.
    intros Sy. induction 1 as [|x ss ts P IH|x y ss|a b c P1 IH1 P2 IH2]; intros H.
    - constructor.
    - inversion H as [|? ? Hx Hs]; subst. constructor; [|apply IH, Hs]. rewrite Forall_forall in *. intros z Hz. apply Hx. eapply Permutation_in; [apply Permutation_sym; exact P|exact Hz].
    - inversion H as [|? ? Hx Hs]; subst. inversion Hs as [|? ? Hy Hr]; subst. inversion Hx as [|? ? Hxy Hxr]; subst.
      constructor; [constructor; [apply Sy; exact Hxy|exact Hy]|]. constructor; assumption.
    - apply IH2, IH1, H.
  Qed.

  Lemma reorder ss ts : Permutation ss ts -> ForallOrdPairs independent ss -> forall w os w', all_mean B w ss os w' ->
    exists os' w'', all_mean B w ts os' w'' /\ Permutation (combine ss os) (combine ts os') /\ same_world w' w''.
  Proof.
    induction 1 as [|x ss ts P IH|x y ss|a b c P1 IH1 P2 IH2]; intros H w os w' A.
    - inversion A; subst. exists [], w'. split; [constructor|]. split; [constructor|apply same_refl].
    - inversion H as [|? ? Hx Hs]; subst. inversion A as [|? ? ? o os1 w1 ? M A1]; subst.
      destruct (IH Hs _ _ _ A1) as (os' & w'' & A2 & Pm & E). exists (o :: os'), w''. split; [econstructor; eassumption|]. split; [constructor; exact Pm|exact E].
    - inversion H as [|? ? Hx Hs]; subst. inversion Hx as [|? ? Hxy _]; subst.
      inversion A as [|? ? ? o os1 w1 ? M A1]; subst. inversion A1 as [|? ? ? o2 os2 w2 ? M2 A2]; subst.
      destruct (swap_two _ _ _ _ _ _ _ Hxy M M2) as (u1 & u2 & N1 & N2 & E). destruct (all_mean_same _ _ _ _ A2 u2 E) as (u3 & A3 & E3).
      exists (o2 :: o :: os2), u3. split; [econstructor; [exact N1|]; econstructor; eassumption|]. split; [apply perm_swap|exact E3].
    - destruct (IH1 H _ _ _ A) as (o1 & w1 & A1 & Pm1 & E1).
      destruct (IH2 (pairs_perm _ independent_sym _ _ P1 H) _ _ _ A1) as (o2 & w2 & A2 & Pm2 & E2).
      exists o2, w2. split; [exact A2|]. split; [eapply Permutation_trans; eassumption|]. intros n. rewrite (E1 n). apply E2.
  Qed.
End Footprint.

(** ** Names in a value are written in the text *)
Inductive val_name : value -> str -> Prop :=
| vn_element e : val_name (VElement e) (el_name e)
| vn_quote v q n : In v q -> val_name v n -> val_name (VQuote q) n.

Definition tok_name (ts : list token) (n : str) : Prop := (exists e, In (TElement e) ts /\ n = el_name e) \/ In (TString n) ts.

Lemma tok_app_l a b n : tok_name a n -> tok_name (a ++ b) n.
Proof. intros [(e & H & E)|H]; [left; exists e; split; [|exact E]|right]; apply in_or_app; left; exact H. Qed.
Lemma tok_app_r a b n : tok_name b n -> tok_name (a ++ b) n.
Proof. intros [(e & H & E)|H]; [left; exists e; split; [|exact E]|right]; apply in_or_app; right; exact H. Qed.
Lemma tok_cons t b n : tok_name b n -> tok_name (t :: b) n.
Proof. apply (tok_app_r [t]). Qed.

Lemma net_names es v n : v = VNetwork es -> ~ val_name v n.
Proof. intros -> H. inversion H. Qed.

Lemma quote_names ts vs : g_quote ts vs -> forall v n, In v vs -> val_name v n -> tok_name ts n.
Proof.
  induction 1 as [|e ts vs G IH|m es s ts vs Gn Se G IH]; intros v n Hi Hv.
  - destruct Hi.
  - destruct Hi as [<-|Hi]; [inversion Hv; subst; left; exists e; split; [left; reflexivity|reflexivity]|]. apply tok_cons. eapply IH; eassumption.
  - destruct Hi as [<-|Hi]; [inversion Hv|]. apply tok_cons, tok_app_r. eapply IH; eassumption.
Qed.

Lemma values_names ts vs : g_values ts vs -> forall v n, In v vs -> val_name v n -> tok_name ts n.
Proof.
  induction 1 as [|e ts vs G IH|b ts vs G IH|m es s ts vs Gn Se G IH|q qs ts vs Gq G IH]; intros v n Hi Hv.
  - destruct Hi.
  - destruct Hi as [<-|Hi]; [inversion Hv; subst; left; exists e; split; [left; reflexivity|reflexivity]|]. apply tok_cons. eapply IH; eassumption.
  - destruct Hi as [<-|Hi]; [inversion Hv; subst; right; left; reflexivity|]. apply tok_cons. eapply IH; eassumption.
  - destruct Hi as [<-|Hi]; [inversion Hv|]. apply tok_cons, tok_app_r. eapply IH; eassumption.
  - destruct Hi as [<-|Hi].
    + apply tok_cons, tok_app_l. inversion Hv; subst. eapply quote_names; eassumption.
    + apply tok_cons, tok_app_r. eapply IH; eassumption.
Qed.

Lemma call_names ts c : g_call ts c -> forall v n, In v (c_args c) -> val_name v n -> tok_name ts n.
Proof. intros G v n Hi. apply (values_names _ _ G v n). right. exact Hi. Qed.

Lemma commas_names ts cs : g_commas ts cs -> forall c v n, In c cs -> In v (c_args c) -> val_name v n -> tok_name ts n.
Proof.
  induction 1 as [|ts c ts' cs Gc G IH]; intros d v n Hd Hi Hv; [destruct Hd|]. destruct Hd as [<-|Hd].
  - apply tok_app_l. eapply call_names; eassumption.
  - apply tok_app_r, tok_cons. eapply IH; eassumption.
Qed.

Lemma script_names ts cs : g_script ts cs -> forall c v n, In c cs -> In v (c_args c) -> val_name v n -> tok_name ts n.
Proof.
  intros [ts' cs' G|ts' cs' ts2 c G Gc] d v n Hd Hi Hv.
  - eapply commas_names; eassumption.
  - apply in_app_or in Hd as [Hd|[<-|[]]]; [apply tok_app_l; eapply commas_names; eassumption|apply tok_app_r; eapply call_names; eassumption].
Qed.

Lemma keeps_names ts k : keeps ts k -> forall n, tok_name k n -> tok_name ts n.
Proof.
  induction 1 as [|s ts k K IH|s ts k K IH|b ts k K IH|t ts k N1 N2 N3 K IH]; intros n H.
  - exact H.
  - apply tok_cons, IH, H.
  - apply tok_cons, IH, H.
  - destruct H as [(e & [E|Hi] & ->)|[E|Hi]].
    + injection E as <-. right. left. reflexivity.
    + apply tok_cons, IH. left. eauto.
    + discriminate E.
    + apply tok_cons, IH. right. exact Hi.
  - destruct H as [(e & [E|Hi] & ->)|[E|Hi]].
    + left. exists e. split; [left; exact E|reflexivity].
    + apply tok_cons, IH. left. eauto.
    + right. left. exact E.
    + apply tok_cons, IH. right. exact Hi.
Qed.

Scheme vlooks_mut := Induction for value_looks Sort Prop with clooks_mut := Induction for call_looks Sort Prop.
Combined Scheme looks_ind from vlooks_mut, clooks_mut.

Lemma looks_names : (forall v n, value_looks v n -> val_name v n) /\ (forall name args n, call_looks name args n -> exists v, In v args /\ val_name v n).
Proof.
  apply (looks_ind (fun v n _ => val_name v n) (fun name args n _ => exists v, In v args /\ val_name v n)); intros.
  - destruct H as (v & Hi & Hv). apply (vn_quote v); [right; exact Hi|exact Hv].
  - eexists. split; [left; reflexivity|constructor].
  - eexists. split; [left; reflexivity|constructor].
  - eexists. split; [left; reflexivity|constructor].
  - exists v. split; [right; left; reflexivity|exact H].
  - exists l. split; [left; reflexivity|exact H].
  - exists r. split; [right; left; reflexivity|exact H].
  - exists v. split; [left; reflexivity|exact H].
Qed.

Lemma looks_written s n : looks_at s n -> name_in s n.
Proof.
  intros (cs & c & (ts & k & L & K & G) & Hc & H). exists ts. split; [exact L|]. apply (keeps_names _ _ K).
  apply (proj2 looks_names) in H as (v & Hi & Hv). eapply script_names; eassumption.
Qed.
