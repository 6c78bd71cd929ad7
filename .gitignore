*.vo
*.vok
*.vos
*.glob
.*.aux
*.aux
.lia.cache
.nia.cache
*.cache
Makefile
Makefile.conf
.Makefile.d
*.d
