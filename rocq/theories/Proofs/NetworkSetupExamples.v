(** Concrete settings for C74, and what the code does not honour. *)
From Coq Require Import ZArith Ascii String Bool Arith Lia.
From Coq Require Import List.
From Verif Require Import Base.AssocMap Model.Strings Model.ElementMap Model.NeuralNetwork Model.Printf Model.Settings Model.SymLines Model.NetworkSetup
  Spec.StringSpec Spec.SymLineSpec Spec.NetworkSetupSpec Proofs.StringProofs Proofs.SymLineProofs Proofs.SymLineMode Proofs.SymLineExamples
  Proofs.NetworkSetupProofs Proofs.NetworkSetupMain Proofs.NetworkSetupAccept.
Import ListNotations.

Definition net_text : str := join [ch_lf] (map lit
  ["number_of_elements 2"; "elements H O"; "global_hidden_layers_short 2"; "global_nodes_short 3 4"; "global_activation_short t s l";
   "element_nodes_short H 5 6"; "element_activation_short O p p p"]%string).
Definition net_settings : settings := fst (loadFile settings_init net_text).
Lemma net_loaded : loadFile settings_init net_text = (net_settings, 0).
Proof. vm_compute. reflexivity. Qed.
Ltac words := apply is_words_iff; vm_compute; reflexivity.
Ltac positive := eexists; split; [vm_compute; reflexivity|reflexivity].
Ltac named := eexists; vm_compute; reflexivity.
Lemma g_layers : getValue net_settings (lit "global_hidden_layers" ++ lit "_short") = Some (lit "2"). Proof. vm_compute. reflexivity. Qed.
Lemma g_nodes : getValue net_settings (lit "global_nodes" ++ lit "_short") = Some (lit "3 4"). Proof. vm_compute. reflexivity. Qed.
Lemma g_acts : getValue net_settings (lit "global_activation" ++ lit "_short") = Some (lit "t s l"). Proof. vm_compute. reflexivity. Qed.
Lemma o_layers : getValues net_settings (lit "element_hidden_layers" ++ lit "_short") = None. Proof. vm_compute. reflexivity. Qed.
Lemma o_nodes : getValues net_settings (lit "element_nodes" ++ lit "_short") = Some [(lit "H 5 6", 5)]. Proof. vm_compute. reflexivity. Qed.
Lemma o_acts : getValues net_settings (lit "element_activation" ++ lit "_short") = Some [(lit "O p p p", 6)]. Proof. vm_compute. reflexivity. Qed.
Lemma w_nodes : is_words (lit "H 5 6") [lit "H"; lit "5"; lit "6"]. Proof. words. Qed.
Lemma w_acts : is_words (lit "O p p p") [lit "O"; lit "p"; lit "p"; lit "p"]. Proof. words. Qed.
Lemma same_words v ws ws' : is_words v ws -> is_words v ws' -> ws' = ws.
Proof. intros A B. destruct (words_exist_unique v) as (u & _ & U). rewrite <- (U _ A), <- (U _ B). reflexivity. Qed.
Lemma elt_H ws : nth_error ws 0 = Some (lit "H") -> elt HO ws 0 0.
Proof. intros E. exists (lit "H"). split; [exact E|vm_compute; reflexivity]. Qed.
Lemma elt_O ws : nth_error ws 0 = Some (lit "O") -> elt HO ws 0 1.
Proof. intros E. exists (lit "O"). split; [exact E|vm_compute; reflexivity]. Qed.
Lemma net_valid : valid_networks net_settings HO (lit "_short") [7; 8] 2.
Proof.
  split.
  - left. reflexivity.
  - split; [lia|]. split; [reflexivity|]. exists (lit "2"). split; [exact g_layers|vm_compute; reflexivity].
  - exists [lit "3"; lit "4"]. split. { exists (lit "3 4"). split; [exact g_nodes|words]. } split; [reflexivity|].
    constructor; [positive|]. constructor; [positive|constructor].
  - exists [lit "t"; lit "s"; lit "l"]. split. { exists (lit "t s l"). split; [exact g_acts|words]. } split; [reflexivity|].
    constructor; [named|]. constructor; [named|]. constructor; [named|constructor].
  - intros values v ws G. rewrite o_layers in G. discriminate.
  - intros values v ws G. rewrite o_nodes in G. injection G as <-. intros [<-|[]] W. cbn [fst] in W. rewrite (same_words _ _ _ w_nodes W). clear W. split.
    + exists 0. split; [apply Nat.ltb_lt; reflexivity|]. apply elt_H. reflexivity.
    + split; [reflexivity|]. cbn [tl]. constructor; [positive|]. constructor; [positive|constructor].
  - intros values v ws G. rewrite o_acts in G. injection G as <-. intros [<-|[]] W. cbn [fst] in W. rewrite (same_words _ _ _ w_acts W). clear W. split.
    + exists 1. split; [apply Nat.ltb_lt; reflexivity|]. apply elt_O. reflexivity.
    + split; [reflexivity|]. cbn [tl]. constructor; [named|]. constructor; [named|]. constructor; [named|constructor].
  - split. { intros i [<-|[<-|[]]]; reflexivity. } intros i [<-|[<-|[]]]; lia.
Qed.
Lemma own_nodes_H : own_line HO net_settings (lit "element_nodes" ++ lit "_short") 0 [lit "H"; lit "5"; lit "6"].
Proof.
  exists [(lit "H 5 6", 5)], [], (lit "H 5 6", 5), []. split; [exact o_nodes|]. split; [reflexivity|]. split; [exact w_nodes|].
  split; [apply elt_H; reflexivity|]. intros v' ws' [].
Qed.
Lemma own_acts_O : own_line HO net_settings (lit "element_activation" ++ lit "_short") 1 [lit "O"; lit "p"; lit "p"; lit "p"].
Proof.
  exists [(lit "O p p p", 6)], [], (lit "O p p p", 6), []. split; [exact o_acts|]. split; [reflexivity|]. split; [exact w_acts|].
  split; [apply elt_O; reflexivity|]. intros v' ws' [].
Qed.
Lemma global_words s kw v ws ws' : getValue s kw = Some v -> is_words v ws -> global_line s kw ws' -> ws' = ws.
Proof. intros G W (v' & G' & W'). rewrite G in G'. injection G' as <-. exact (same_words _ _ _ W W'). Qed.

Theorem last_layer_refuted : exists text s em inputs nets e net w,
  loadFile settings_init text = (s, 0) /\ valid_networks s em (lit "_short") inputs 2 /\
  setupNeuralNetworks s em (lit "_short") inputs = Done nets /\ nth_error nets e = Some net /\
  layer_word em s (lit "element_nodes" ++ lit "_short") (lit "global_nodes" ++ lit "_short") e 2 w /\
  atoi w <> Done (Z.of_nat (numNeurons net 2)).
Proof.
  destruct (setup_accepts _ _ _ _ _ net_valid) as (nets & E). destruct net_valid as [_ _ _ _ _ _ _ (Hi & _)].
  destruct (setup_sound _ _ _ _ _ Hi ltac:(discriminate) E) as (n & Hn & (v & Gv & Av) & L & H).
  rewrite g_layers in Gv. injection Gv as <-. assert (n = 2) as ->. { vm_compute in Av. injection Av as Av. apply Nat2Z.inj. symmetry. exact Av. }
  destruct nets as [|net nets]; [discriminate L|]. destruct (H 0 7 net eq_refl eq_refl) as (_ & _ & _ & _ & _ & _ & _ & (ws & w & G & _ & W & A) & _).
  rewrite (global_words _ _ _ [lit "3"; lit "4"] ws g_nodes ltac:(words) G) in W. injection W as <-.
  exists net_text, net_settings, HO, [7; 8], (net :: nets), 0, net, (lit "6"). split; [exact net_loaded|]. split; [exact net_valid|]. split; [exact E|].
  split; [reflexivity|]. split. { left. exists [lit "H"; lit "5"; lit "6"]. split; [exact own_nodes_H|reflexivity]. }
  rewrite <- A. vm_compute. discriminate.
Qed.
Theorem output_activation_refuted : exists text s em inputs nets e net w,
  loadFile settings_init text = (s, 0) /\ valid_networks s em (lit "_short") inputs 2 /\
  setupNeuralNetworks s em (lit "_short") inputs = Done nets /\ nth_error nets e = Some net /\
  layer_word em s (lit "element_activation" ++ lit "_short") (lit "global_activation" ++ lit "_short") e 3 w /\
  activationFromString w <> Some (actFun net 3).
Proof.
  destruct (setup_accepts _ _ _ _ _ net_valid) as (nets & E). destruct net_valid as [_ _ _ _ _ _ _ (Hi & _)].
  destruct (setup_sound _ _ _ _ _ Hi ltac:(discriminate) E) as (n & Hn & (v & Gv & Av) & L & H).
  rewrite g_layers in Gv. injection Gv as <-. assert (n = 2) as ->. { vm_compute in Av. injection Av as Av. apply Nat2Z.inj. symmetry. exact Av. }
  destruct nets as [|net0 [|net nets]]; [discriminate L|discriminate L|]. destruct (H 1 8 net eq_refl eq_refl) as (_ & _ & _ & _ & _ & _ & _ & _ & _ & (ws & w & G & _ & W & A) & _).
  rewrite (global_words _ _ _ [lit "t"; lit "s"; lit "l"] ws g_acts ltac:(words) G) in W. injection W as <-.
  exists net_text, net_settings, HO, [7; 8], (net0 :: net :: nets), 1, net, (lit "p"). split; [exact net_loaded|]. split; [exact net_valid|]. split; [exact E|].
  split; [reflexivity|]. split. { left. exists [lit "O"; lit "p"; lit "p"; lit "p"]. split; [exact own_acts_O|reflexivity]. }
  change (3 : nat) with (2 + 1). rewrite <- A. vm_compute. discriminate.
Qed.
(** Different numbers of hidden layers. *)
Definition layers_text : str := join [ch_lf] (map lit
  ["number_of_elements 2"; "elements H O"; "global_hidden_layers_short 2"; "global_nodes_short 3 4"; "global_activation_short t s l";
   "element_hidden_layers_short H 1"; "element_nodes_short H 5"; "element_activation_short H p l"]%string).
Theorem own_layers_refuted : exists text s em inputs,
  loadFile settings_init text = (s, 0) /\
  own_line em s (lit "element_hidden_layers" ++ lit "_short") 0 [lit "H"; lit "1"] /\
  own_line em s (lit "element_nodes" ++ lit "_short") 0 [lit "H"; lit "5"] /\
  own_line em s (lit "element_activation" ++ lit "_short") 0 [lit "H"; lit "p"; lit "l"] /\
  setupNeuralNetworks s em (lit "_short") inputs = Thrown.
Proof.
  exists layers_text, (fst (loadFile settings_init layers_text)), HO, [7; 8]. split; [vm_compute; reflexivity|].
  split. { exists [(lit "H 1", 5)], [], (lit "H 1", 5), []. split; [vm_compute; reflexivity|]. split; [reflexivity|]. split; [words|].
           split; [apply elt_H; reflexivity|]. intros v' ws' []. }
  split. { exists [(lit "H 5", 6)], [], (lit "H 5", 6), []. split; [vm_compute; reflexivity|]. split; [reflexivity|]. split; [words|].
           split; [apply elt_H; reflexivity|]. intros v' ws' []. }
  split. { exists [(lit "H p l", 7)], [], (lit "H p l", 7), []. split; [vm_compute; reflexivity|]. split; [reflexivity|]. split; [words|].
           split; [apply elt_H; reflexivity|]. intros v' ws' []. }
  vm_compute. reflexivity.
Qed.
