.lia.cache
.nia.cache
*.vo
*.vok
*.vos
*.glob
.*.aux
Makefile.conf
Makefile
.Makefile.d
.nra.cache
