RULES={
 'FloatCholFinThms':[('PropFloatCholFull','PropFloat32CholFull'),('chol_complete_f64_L','chol_complete_f32_L'),('chol_solve_rounding_L','chol_solve_rounding_f32_L')],
 'FloatSolveFinThms':[('PropFloatPrio','PropFloat32Prio')],
 'FloatCholPrioThms':[('PropFloatCholFull','PropFloat32CholFull'),('chol_rounding_L','chol_rounding_f32_L'),('chol_solve_rounding_L','chol_solve_rounding_f32_L')],
 'B64':[('The same arithmetic as F64.v (SpecFloat), but the carrier contains exactly','As B64.v: the carrier contains exactly')],
 'FloatBase':[('4503599627370496 (-52)','8388608 (-23)')],
 'FloatMoreThms':[('-[1075%N]/(1022 + 53)%N','-[150%N]/(126 + 24)%N')],
 'FloatCholFullThms':[('5066549580791808 (-49)','9437184 (-20)'),('6755399441055744 (-51)','12582912 (-22)')],
 'FloatQR':[('(j + k + l <= 1075)%N','(j + k + l <= 150)%N'),('(j + k <= 553)%N','(j + k <= 76)%N')],
 'FloatQRPrio':[('tech_pow_Rmult 2 170','tech_pow_Rmult 2 15')],
 'FloatQRPrioThms':[('qr_q_rounding_L','qr_q_rounding_f32_L'),('tech_pow_Rmult 2 169','tech_pow_Rmult 2 14'),('4503599627370496 (-51)','8388608 (-22)')],
 'FloatPinvThms':[(x+'_rounding_L',x+'_rounding_f32_L') for x in (' qr','mul','inverse',':= lu')],
 'FloatPinvPrioThms':[('PropFloatQRPrio','PropFloat32QRPrio'),('171 = 169 + 2','16 = 14 + 2'),('200 = 2 + 198','20 = 2 + 18')]+[(x+'_L',x+'_f32_L') for x in (' pinverse_rounding','qr_no_overflow','qr_rounding','mul_rounding','inverse_no_overflow','lu_no_overflow')],
 'FloatQRSolveThms':[('qr_no_overflow_L','qr_no_overflow_f32_L'),('[:: 1; 3; 2; 6]%N','[:: 1; 2; 2; 4]%N'),('rv (A ord0 ord_max) = 3 /\\ rv (A ord_max ord_max) = 6','rv (A ord0 ord_max) = 2 /\\ rv (A ord_max ord_max) = 4'),
   ('rv (b64_int 6) = 6','rv (b64_int 4) = 4'),('b64_int 6','b64_int 4'),('false 4503599627370496 (-51)','false 8388608 (-22)'),('false 6755399441055744 (-51)','false 12582912 (-22)'),
   ('false 6755399441055744 (-50)','false 8388608 (-21)'),('false 4503599627370496 0','false 8388608 1'),('[1 3; 2 6]','[1 2; 2 4]')],
 'FloatRankThms':[('false 4503599627370496 (-104)','false 8388608 (-75)'),('bpow_plus_1 radix2 1023','bpow_plus_1 radix2 127'),('IZR 4503599627370496 = bpow radix2 52','IZR 8388608 = bpow radix2 23'),
   ('false 4503599627370496 971','false 8388608 104'),('false 4503599627370496 970','false 8388608 103'),('h 52%N','h 23%N'),('2 * 2 ^ 52','2 * 2 ^ 23'),('h 1022%N','h 126%N')],
 'FloatSingThms':[('b64_int 49','b64_int 41'),('[49 49; 1 1]','[41 41; 1 1]'),('ts_49','ts_41'),('6755399441055744 (-51)','12582912 (-22)'),
   ('6004799503160661 * bpow radix2 (-54)','11184811 * bpow radix2 (-25)'),('6004799503160661 (-54)','11184811 (-25)'),('the double nearest','the f64 nearest'),('solve_well_conditioned_L','solve_well_conditioned_f32_L'),('(PropFloatPrio.v)','(PropFloat32Prio.v)')],
}
