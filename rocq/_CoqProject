-Q theories Verif
theories/Base.v
theories/BaseLemmas.v
theories/Fields.v
theories/BitStream_Model.v
theories/BitStream_Spec.v
theories/BitStream_Proofs.v
theories/BitStream_Props.v
theories/Lfsr_Model.v
theories/Lfsr_Spec.v
theories/Lfsr_Proofs.v
theories/Lfsr_Props.v
theories/TeleBits_Model.v
theories/TeleBits_Spec.v
theories/TeleBits_Proofs.v
theories/TeleBits_Props.v
theories/Filters_Model.v
theories/Filters_Spec.v
theories/Filters_Proofs.v
theories/Filters_Proofs2.v
theories/Filters_Proofs3.v
theories/Filters_Props.v
theories/Polyphase_Model.v
theories/Polyphase_Spec.v
theories/Polyphase_Proofs.v
theories/Polyphase_Proofs2.v
theories/Polyphase_Props.v
theories/OField.v
theories/Interp_Model.v
theories/Interp_Spec.v
theories/Interp_Proofs.v
theories/Interp_Proofs2.v
theories/Interp_Props.v
theories/DftSys.v
theories/ComplexSys.v
theories/Fourier_Model.v
theories/Fourier_Spec.v
theories/Fourier_Proofs.v
theories/Fourier_Proofs2.v
theories/Fourier_Proofs3.v
theories/Fourier_Proofs4.v
theories/Fourier_Props.v
theories/RField.v
theories/HadGo_Model.v
theories/HadGo_Spec.v
theories/HadGo_Proofs.v
theories/HadGo_Proofs2.v
theories/HadGo_Proofs3.v
theories/HadGo_Props.v
theories/Poly_Model.v
theories/Poly_Spec.v
theories/Poly_Proofs.v
theories/Poly_Props.v
theories/Dbl.v
theories/Temps_Model.v
theories/Temps_Spec.v
theories/Temps_Proofs.v
theories/Temps_Proofs2.v
theories/Temps_Props.v
theories/Wav_Model.v
theories/Wav_Spec.v
theories/Wav_Proofs.v
theories/Wav_Proofs2.v
theories/Wav_Proofs3.v
theories/Wav_Props.v
theories/Tab_Model.v
theories/Tab_Spec.v
theories/Tab_Proofs.v
theories/Tab_Proofs2.v
theories/Tab_Proofs3.v
theories/Tab_Props.v
theories/Vec_Model.v
theories/Vec_Spec.v
theories/Vec_Proofs.v
theories/Concat_Proofs.v
theories/Vec_Props.v
theories/Phase_Model.v
theories/Phase_Spec.v
theories/Phase_Proofs.v
theories/Phase_Props.v
theories/Sig_Model.v
theories/Sig_Spec.v
theories/Sig_Proofs.v
theories/Sig_Props.v
theories/Levinson_Model.v
theories/Levinson_Spec.v
theories/Levinson_Proofs.v
theories/Levinson_Props.v
theories/Demod_Model.v
theories/Demod_Spec.v
theories/Demod_Proofs.v
theories/Demod_Props.v
theories/Geo_Model.v
theories/Geo_Spec.v
theories/Geo_Proofs.v
theories/Geo_Proofs2.v
theories/Geo_Props.v
theories/Conv_Lemmas.v
theories/Zfe_Model.v
theories/Zfe_Spec.v
theories/Zfe_Proofs.v
theories/Zfe_Props.v
theories/Egal_Model.v
theories/Egal_Spec.v
theories/Egal_Proofs.v
theories/Egal_Props.v
theories/Special_Model.v
theories/Special_Spec.v
theories/Special_Proofs.v
theories/Special_Props.v
theories/Design_Model.v
theories/Design_Spec.v
theories/Design_Proofs.v
theories/Design_Proofs2.v
theories/Design_Props.v
theories/Ra_Model.v
theories/Ra_Spec.v
theories/Ra_Proofs.v
theories/Ra_Proofs2.v
theories/Ra_Props.v
theories/Spread_Model.v
theories/Spread_Spec.v
theories/Spread_Proofs.v
theories/Spread_Props.v
theories/Win_Model.v
theories/Win_Spec.v
theories/Win_Proofs.v
theories/Win_Proofs2.v
theories/Win_Props.v
theories/Rif_Model.v
theories/Rif_Spec.v
theories/Rif_Proofs.v
theories/Rif_Proofs2.v
theories/Rif_Props.v
theories/Rcs_Spec.v
theories/Rcs_Proofs.v
theories/Rcs_Proofs2.v
theories/Rcs_Props.v
theories/Gauss_Proofs.v
theories/Gauss_Props.v
theories/ROField.v
theories/Hil_Model.v
theories/Hil_Spec.v
theories/Hil_Proofs.v
theories/Hil_Proofs2.v
theories/Hil_Props.v
theories/Freq_Spec.v
theories/Freq_Proofs.v
theories/Freq_Proofs2.v
theories/Freq_Props.v
theories/Rii_Model.v
theories/Biq_Spec.v
theories/Biq_Proofs.v
theories/Biq_Props.v
theories/Tf_Proofs.v
theories/Tf_Props.v
theories/Factor_Proofs.v
theories/Riia_Spec.v
theories/Riia_Proofs.v
theories/But_Proofs.v
theories/But_Props.v
theories/Tch_Proofs.v
theories/Tch_Props.v
theories/Pll_Model.v
theories/Pll_Spec.v
theories/Pll_Proofs.v
theories/Pll_Proofs2.v
theories/Pll_Proofs3.v
theories/Pll_Props.v
theories/Fest_Model.v
theories/Fest_Spec.v
theories/Fest_Proofs.v
theories/Fest_Proofs2.v
theories/Fest_Proofs3.v
theories/Fest_Proofs4.v
theories/Fest_Proofs5.v
theories/Fest_Props.v
theories/Fest_Props2.v
theories/Fest_Props3.v
theories/Del_Model.v
theories/Del_Spec.v
theories/Del_Proofs.v
theories/Del_Proofs2.v
theories/Del_Proofs3.v
theories/Del_Props.v
theories/Clk_Model.v
theories/Clk_Spec.v
theories/Clk_Proofs.v
theories/Clk_Proofs2.v
theories/Clk_Props.v
theories/Snr_Model.v
theories/Snr_Spec.v
theories/Snr_Props.v
theories/Dtc_Model.v
theories/Dtc_Spec.v
theories/Dtc_Proofs.v
theories/Dtc_Proofs2.v
theories/Dtc_Proofs3.v
theories/Dtc_Props.v
theories/Dly_Model.v
theories/Dly_Spec.v
theories/Dly_Proofs.v
theories/Dly_Proofs2.v
theories/Dly_Proofs3.v
theories/Dly_Proofs4.v
theories/Dly_Props.v
theories/Mod_Model.v
theories/Mod_Spec.v
theories/Mod_Proofs.v
theories/Mod_Proofs2.v
theories/Mod_Proofs3.v
theories/Mod_Proofs4.v
theories/Mod_Props.v
theories/Tod_Model.v
theories/Tod_Spec.v
theories/Tod_Proofs.v
theories/Tod_Proofs2.v
theories/Tod_Proofs3.v
theories/Tod_Proofs4.v
theories/Tod_Props.v
theories/Fz_Model.v
theories/Fz_Spec.v
theories/Fz_Proofs.v
theories/Fz_Proofs2.v
theories/Fz_Props.v
theories/Ana_Model.v
theories/Ana_Spec.v
theories/Ana_Proofs.v
theories/Ana_Props.v
theories/Cmp_Model.v
theories/Cmp_Spec.v
theories/Cmp_Proofs.v
theories/Cmp_Proofs2.v
theories/Cmp_Props.v
theories/Kal_Model.v
theories/Kal_Spec.v
theories/Kal_Alg.v
theories/Kal_Proofs.v
theories/Kal_Proofs2.v
theories/Kal_Proofs3.v
theories/Kal_Proofs4.v
theories/Kal_Proofs5.v
theories/Kal_Props.v
theories/Kal_Props2.v
theories/Chn_Model.v
theories/Chn_Spec.v
theories/Chn_Proofs.v
theories/Chn_Proofs2.v
theories/Chn_Props.v
theories/Fdt_Model.v
theories/Fdt_Spec.v
theories/Fdt_Proofs.v
theories/Fdt_Proofs2.v
theories/Fdt_Proofs3.v
theories/Fdt_Proofs4.v
theories/Fdt_Proofs5.v
theories/Fdt_Proofs6.v
theories/Fdt_Props.v
theories/Fdt_Props2.v
theories/Equi_Model.v
theories/Equi_Spec.v
theories/Equi_Proofs.v
theories/Equi_Proofs2.v
theories/Equi_Proofs3.v
theories/Equi_Proofs4.v
theories/Equi_Proofs5.v
theories/Equi_Props.v
theories/Cicf_Model.v
theories/Cicf_Spec.v
theories/Cicf_Proofs.v
theories/Cicf_Props.v
theories/Unit_Model.v
theories/Unit_Spec.v
theories/Unit_Proofs.v
theories/Unit_Props.v
