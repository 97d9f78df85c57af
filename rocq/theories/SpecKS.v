(** * Vocabulary for runs of the Kuramoto-Sivashinsky and Burgers equations *)
From Verif Require Import Prelude NdArr Cplx TimeStep_model Spectral_model SpectralStep_model.
Set Implicit Arguments.
Local Open Scope Z_scope.

(** The grid has 2 n points; dealiased products are only defined when that is a multiple of 4. *)
Definition good_size (smooth : bool) (n : nat) : Prop := (1 <= n)%nat /\ (smooth = true -> exists q, n = (2 * q)%nat).
(** The schemes of the library: time_stepping.py's functions with their coefficients. *)
Definition rk3_scheme : spectral_scheme := LowStorage [0; 1 / 3; 3 / 4; 1]%R [0; - (5 / 9); - (153 / 128)]%R [1 / 3; 15 / 16; 8 / 15]%R.
Definition rk4_scheme : spectral_scheme := LowStorage
    [0; 1496590219993 / 10000000000000; 3704009573644 / 10000000000000; 6222557631345 / 10000000000000; 9582821306748 / 10000000000000; 1]%R
    [0; - (4178904745 / 10000000000); - (1192151694643 / 1000000000000); - (1697784692471 / 1000000000000); - (1514183444257 / 1000000000000)]%R
    [1496590219993 / 10000000000000; 3792103129999 / 10000000000000; 8229550293869 / 10000000000000; 6994504559488 / 10000000000000; 1530572479681 / 10000000000000]%R.
